(** The effect language in which the command executors are modelled.

    A node is one access to state shared between goroutines; a leaf is the end of
    the executor.  Purely local computation is ordinary Gallina. *)
From Verif Require Export Resp.

(** What a key can hold (memdb/keys.go:234-243): []byte, *Hash, *List, *Set. *)
Inductive value : Type :=
| VStr (v : val)                    (* []byte, possibly nil *)
| VHash (h : gmap bytes val)        (* memdb/hash_struct.go:7-9 *)
| VList (l : list val)              (* memdb/list_struct.go:7-17, see DList.v for the pointers *)
| VSet (s : gset bytes).            (* memdb/set_struct.go:5-7 *)

(** Modes of sync.RWMutex. *)
Inductive mode := MR | MW.

Inductive prog (A : Type) : Type :=
| Ret (a : A)
| Crash                                            (* Go run-time panic: the process dies *)
| Hang                                             (* a loop that never ends *)
| Now (k : Z -> prog A)                            (* time.Now().Unix() *)
| Range (l : list bytes) (k : list bytes -> prog A)  (* one `for range` over a Go map with keys l: any order *)
| DGet (key : bytes) (k : option value -> prog A)  (* db.dict.Get, or reading through the stored pointer *)
| DSet (key : bytes) (v : value) (k : bool -> prog A)  (* segment write of db.dict.Set; answers "key was new" *)
| DMut (key : bytes) (v : value) (k : prog A)      (* in-place mutation of the object stored under key *)
| DDel (key : bytes) (k : bool -> prog A)          (* segment delete of db.dict.Delete; answers "was present" *)
| DSeg (i : N) (k : list bytes -> prog A)          (* keys of segment i of db.dict, in iteration order *)
| CntLoad (k : Z -> prog A)                        (* read  db.dict.count *)
| CntStore (c : Z) (k : prog A)                    (* write db.dict.count *)
| EGet (key : bytes) (k : option Z -> prog A)      (* db.expires.Get *)
| ESet (key : bytes) (t : Z) (k : prog A)          (* db.expires.Set *)
| EDel (key : bytes) (k : bool -> prog A)          (* db.expires.Delete *)
| Acq (pos : N) (m : mode) (k : prog A)            (* locks[pos].Lock() / RLock() *)
| Rel (pos : N) (m : mode) (k : prog A).           (* locks[pos].Unlock() / RUnlock() *)
Arguments Ret {A}. Arguments Crash {A}. Arguments Hang {A}. Arguments Now {A}.
Arguments Range {A}. Arguments DGet {A}. Arguments DSet {A}. Arguments DMut {A}.
Arguments DDel {A}. Arguments DSeg {A}. Arguments CntLoad {A}. Arguments CntStore {A}.
Arguments EGet {A}. Arguments ESet {A}. Arguments EDel {A}. Arguments Acq {A}. Arguments Rel {A}.

Fixpoint pbind {A C} (p : prog A) (f : A -> prog C) : prog C :=
  match p with
  | Ret a => f a
  | Crash => Crash
  | Hang => Hang
  | Now k => Now (fun x => pbind (k x) f)
  | Range l k => Range l (fun x => pbind (k x) f)
  | DGet key k => DGet key (fun x => pbind (k x) f)
  | DSet key v k => DSet key v (fun x => pbind (k x) f)
  | DMut key v k => DMut key v (pbind k f)
  | DDel key k => DDel key (fun x => pbind (k x) f)
  | DSeg i k => DSeg i (fun x => pbind (k x) f)
  | CntLoad k => CntLoad (fun x => pbind (k x) f)
  | CntStore c k => CntStore c (pbind k f)
  | EGet key k => EGet key (fun x => pbind (k x) f)
  | ESet key t k => ESet key t (pbind k f)
  | EDel key k => EDel key (fun x => pbind (k x) f)
  | Acq pos m k => Acq pos m (pbind k f)
  | Rel pos m k => Rel pos m (pbind k f)
  end.

Notation "x <- p ;; q" := (pbind p (fun x => q))
  (at level 100, p at next level, right associativity).
Notation "p ;;; q" := (pbind p (fun _ => q)) (at level 100, right associativity).

(** Parameters of the model: the configured number of map segments (positive),
    and the 64-bit floating point operations, which are left uninterpreted. *)
Class Setup := {
  segnum : positive;                       (* config.Conf.SegNum *)
  float : Type;
  parse_float : bytes -> option float;     (* strconv.ParseFloat(s, 64); None on error *)
  add_float : float -> float -> float;
  fmt_float : float -> bytes;              (* strconv.FormatFloat(f, 'f', -1, 64) *)
}.

Section WithParams.
Context {P : Setup}.

(** ** util.Hash, segment and lock positions *)

(** ConcurrentMap.getKeyPos (memdb/concurrentMap.go:39-42); int(h.Sum32()) is non-negative on 64 bits. *)
Definition segpos (key : bytes) : N := (fnv1a key mod Npos segnum)%N.

(** LocksManager.GetKeyPos (memdb/locks.go:23-27), with 2*SegNum locks (memdb/memdb.go:18). *)
Definition lockpos (key : bytes) : N := (fnv1a (B "@" ++ key ++ B "&") mod Npos (2 * segnum))%N.

(** LocksManager.getSortedLocks (memdb/locks.go:51-67): the distinct positions, sorted. *)
Definition sorted_locks (keys : list bytes) : list N :=
  merge_sort N.le (remove_dups (lockpos <$> keys)).

(** Lock / UnLock / RLock / RUnLock (memdb/locks.go:30-48). *)
Definition lock (m : mode) (key : bytes) : prog unit := Acq (lockpos key) m (Ret tt).
Definition unlock (m : mode) (key : bytes) : prog unit := Rel (lockpos key) m (Ret tt).

(** MLock / MUnLock / MRLock / MRUnLock (memdb/locks.go:69-99): in increasing order. *)
Fixpoint acq_all (m : mode) (l : list N) : prog unit :=
  match l with [] => Ret tt | p :: r => Acq p m (acq_all m r) end.
Fixpoint rel_all (m : mode) (l : list N) : prog unit :=
  match l with [] => Ret tt | p :: r => Rel p m (rel_all m r) end.
Definition mlock (m : mode) (keys : list bytes) : prog unit := acq_all m (sorted_locks keys).
Definition munlock (m : mode) (keys : list bytes) : prog unit := rel_all m (sorted_locks keys).

(** [db.locks.Lock(key); defer db.locks.UnLock(key); body]. *)
Definition with_lock {A} (m : mode) (key : bytes) (body : prog A) : prog A :=
  lock m key ;;; r <- body ;; unlock m key ;;; Ret r.
Definition with_mlock {A} (m : mode) (keys : list bytes) (body : prog A) : prog A :=
  mlock m keys ;;; r <- body ;; munlock m keys ;;; Ret r.

(** ** ConcurrentMap operations on db.dict and db.expires

    The data of a segment is accessed under the segment's own RWMutex, a leaf lock
    held for the duration of the access only, so each segment access is one atomic
    node (Shard.v has the single steps; C79).  The shared counter [count] is not protected by a common lock
    (m.count++ runs under the lock of *one* segment), so its load and store are
    separate nodes.  [expires.count] is never read and is not modelled. *)

(** ConcurrentMap.Set (memdb/concurrentMap.go:45-59). *)
Definition dict_set (key : bytes) (v : value) : prog unit :=
  DSet key v (fun isnew =>
    if isnew then CntLoad (fun c => CntStore (c + 1) (Ret tt)) else Ret tt).

(** ConcurrentMap.Delete (memdb/concurrentMap.go:61-75). *)
Definition dict_del (key : bytes) : prog bool :=
  DDel key (fun was =>
    if was then CntLoad (fun c => CntStore (c - 1) (Ret true)) else Ret false).

(** ConcurrentMap.Get (memdb/concurrentMap.go:77-85). *)
Definition dict_get (key : bytes) : prog (option value) := DGet key Ret.
Definition exp_get (key : bytes) : prog (option Z) := EGet key Ret.

(** In-place mutation of the container stored under [key]. *)
Definition obj_put (key : bytes) (v : value) : prog unit := DMut key v (Ret tt).

Definition now_unix : prog Z := Now Ret.

(** ** memdb/memdb.go *)

(** CheckExpire (memdb/memdb.go:23-36): the clock is read only if the key has a deadline. *)
Definition check_expire (key : bytes) : prog bool :=
  EGet key (fun e => match e with
                     | None => Ret false
                     | Some t => Now (fun now => Ret (t <? now))
                     end).

(** SetExpire (memdb/memdb.go:40-47). *)
Definition set_expire (key : bytes) (ttl : Z) : prog Z :=
  DGet key (fun v => match v with
                     | None => Ret 0
                     | Some _ => ESet key ttl (Ret 1)
                     end).

(** DeleteExpire (memdb/memdb.go:49-51). *)
Definition delete_expire (key : bytes) : prog bool := EDel key Ret.

(** DeleteExpiredKey (memdb/memdb.go:54-63). *)
Definition delete_expired_key (key : bytes) : prog bool :=
  b <- check_expire key ;;
  if b then with_lock MW key (dict_del key ;;; delete_expire key ;;; Ret true)
  else Ret false.

End WithParams.

(** ** Replies *)
Definition ok : rdata := RStr (B "OK").
Definition rnil : rdata := RBulk None.
Definition err_args : rdata := RErr (B "wrong number of arguments for command").
Definition err_int : rdata := RErr (B "value is not an integer").
Definition err_float : rdata := RErr (B "value is not an float").
Definition err_wrong_kind : rdata := RErr (B "Operation against a key holding the wrong kind of value").
Definition err_not_string : rdata := RErr (B "the value stored at key is not a string").
Definition err_syntax : rdata := RErr (B "syntax error").
Definition err_no_key : rdata := RErr (B "no such key").
Definition rbulks (l : list bytes) : list rdata := map (fun s => RBulk (Some s)) l.

(** [var res []RedisData] extended by appends: nil if nothing was appended. *)
Definition rarr_nilable (l : list rdata) : rdata :=
  RArr (match l with [] => None | _ => Some l end).
