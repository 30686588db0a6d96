(** Concurrent execution: any number of goroutines executing effect trees on one database, one node at a time.
    The databases of the server have disjoint maps and locks (memdb/memdb.go:14-20), so one database is enough here. *)
From Verif Require Export Seq.

(** One sync.RWMutex: the number of readers inside, whether a writer is inside, and whether a writer has announced itself
    (Lock() was called and waits for the readers to leave). *)
Record rw := mkRw { rd : nat; wr : bool; pend : bool }.
Definition free : rw := mkRw 0 false false.

(** A goroutine: what is left of its program; [ann]: it is inside Lock(), announced. *)
Record thread A := mkT { tcode : prog A; ann : bool }.
Arguments mkT {A}. Arguments tcode {A}. Arguments ann {A}.
(** The whole state: the database, the locks by position, the goroutines. *)
Record conf A := mkC { cdb : db; lk : N -> rw; ths : list (thread A) }.
Arguments mkC {A}. Arguments cdb {A}. Arguments lk {A}. Arguments ths {A}.
Definition fupd (f : N -> rw) (p : N) (x : rw) : N -> rw := fun q => if (q =? p)%N then x else f q.

Section WithParams.
Context {P : Setup}.

(** [prim T d p d' p']: one access, not to a lock; [T] is the set of values the clock may show.
    Same effects as in Seq.v.  A loop that never ends stays where it is. *)
Inductive prim {A} (T : Z -> Prop) : db -> prog A -> db -> prog A -> Prop :=
| P_Hang d : prim T d Hang d Hang
| P_Now d k t : T t -> prim T d (Now k) d (k t)
| P_Range d l k l' : Permutation l' l -> prim T d (Range l k) d (k l')
| P_DGet d key k : prim T d (DGet key k) d (k (dict d !! key))
| P_DSet d key v k : prim T d (DSet key v k) (mkDb (<[key := v]> (dict d)) (exps d) (cnt d))
    (k (match dict d !! key with Some _ => false | None => true end))
| P_DMut d key v k : prim T d (DMut key v k) (mkDb (alter (fun _ => v) key (dict d)) (exps d) (cnt d)) k
| P_DDel d key k : prim T d (DDel key k) (mkDb (delete key (dict d)) (exps d) (cnt d))
    (k (match dict d !! key with Some _ => true | None => false end))
| P_DSeg d i k l' : Permutation l' (seg_keys d i) -> prim T d (DSeg i k) d (k l')
| P_CntLoad d k : prim T d (CntLoad k) d (k (cnt d))
| P_CntStore d c k : prim T d (CntStore c k) (mkDb (dict d) (exps d) c) k
| P_EGet d key k : prim T d (EGet key k) d (k (exps d !! key))
| P_ESet d key t k : prim T d (ESet key t k) (mkDb (dict d) (<[key := t]> (exps d)) (cnt d)) k
| P_EDel d key k : prim T d (EDel key k) (mkDb (dict d) (delete key (exps d)) (cnt d))
    (k (match exps d !! key with Some _ => true | None => false end)).

(** One step of one goroutine.  RLock() waits while a writer is inside or announced.  Lock() waits for the other writers,
    then announces itself, then waits for the readers to leave.  Unlocking a lock that is not held is a fatal error
    (no step; excluded by [C52_no_fatal]). *)
Inductive cstep {A} (T : Z -> Prop) : conf A -> conf A -> Prop :=
| C_prim d L ts i p d' p' : ts !! i = Some (mkT p false) -> prim T d p d' p' ->
    cstep T (mkC d L ts) (mkC d' L (<[i := mkT p' false]> ts))
| C_rlock d L ts i pos k n : ts !! i = Some (mkT (Acq pos MR k) false) -> L pos = mkRw n false false ->
    cstep T (mkC d L ts) (mkC d (fupd L pos (mkRw (S n) false false)) (<[i := mkT k false]> ts))
| C_announce d L ts i pos k n : ts !! i = Some (mkT (Acq pos MW k) false) -> L pos = mkRw n false false ->
    cstep T (mkC d L ts) (mkC d (fupd L pos (mkRw n false true)) (<[i := mkT (Acq pos MW k) true]> ts))
| C_wlock d L ts i pos k : ts !! i = Some (mkT (Acq pos MW k) true) -> L pos = mkRw 0 false true ->
    cstep T (mkC d L ts) (mkC d (fupd L pos (mkRw 0 true false)) (<[i := mkT k false]> ts))
| C_runlock d L ts i pos k n b : ts !! i = Some (mkT (Rel pos MR k) false) -> L pos = mkRw (S n) false b ->
    cstep T (mkC d L ts) (mkC d (fupd L pos (mkRw n false b)) (<[i := mkT k false]> ts))
| C_wunlock d L ts i pos k n b : ts !! i = Some (mkT (Rel pos MW k) false) -> L pos = mkRw n true b ->
    cstep T (mkC d L ts) (mkC d (fupd L pos (mkRw n false b)) (<[i := mkT k false]> ts)).

(** A client sends commands one after the other, each after the reply to the one before (server/handler.go:44-90);
    [acc]: the replies so far. *)
Fixpoint client_from (acc : list rdata) (cmds : list command) : prog (list rdata) :=
  match cmds with
  | [] => Ret acc
  | c :: r => x <- exec_in_db c ;; client_from (acc ++ [x]) r
  end.
Definition client (cmds : list command) : prog (list rdata) := client_from [] cmds.
(** All the clients start; all locks are free. *)
Definition start {A} (d : db) (ps : list (prog A)) : conf A := mkC d (fun _ => free) (map (fun p => mkT p false) ps).
Definition clients (d : db) (cs : list (list command)) : conf (list rdata) := start d (map client cs).
End WithParams.

(** A goroutine waits for a lock that it cannot have now. *)
Definition waits {A} (s : conf A) (t : thread A) : Prop :=
  match tcode t with
  | Acq pos MR _ => wr (lk s pos) = true \/ pend (lk s pos) = true
  | Acq pos MW _ => if ann t then rd (lk s pos) <> 0%nat else wr (lk s pos) = true \/ pend (lk s pos) = true
  | _ => False
  end.
Definition returned {A} (t : thread A) : Prop := exists a, tcode t = Ret a.
(** Some goroutine advances; only a goroutine in an endless loop takes steps without advancing. *)
Definition advance {P : Setup} {A} (T : Z -> Prop) (c c' : conf A) : Prop := cstep T c c' /\ ths c' <> ths c.
(** The next step of the goroutine stores, changes or removes the value of the key; fetches it; sets or removes its deadline. *)
Definition writes_value {A} (key : bytes) (t : thread A) : Prop :=
  match tcode t with DSet k _ _ | DMut k _ _ | DDel k _ => k = key | _ => False end.
Definition reads_value {A} (key : bytes) (t : thread A) : Prop := match tcode t with DGet k _ => k = key | _ => False end.
Definition writes_deadline {A} (key : bytes) (t : thread A) : Prop := match tcode t with ESet k _ _ | EDel k _ => k = key | _ => False end.
(** The next step of the goroutine releases a lock in a mode in which nobody holds it: a fatal error in Go. *)
Definition bad_unlock {A} (c : conf A) (t : thread A) : Prop :=
  match tcode t with Rel p MR _ => rd (lk c p) = 0%nat | Rel p MW _ => wr (lk c p) = false | _ => False end.
