(** Model of memdb/hash.go and memdb/hash_struct.go.

    A Go map is a [gmap]; iterating over it is a [Range] node whose answer is some
    permutation of its keys.  The successive in-place updates a command makes to one
    hash, all made under the key's write lock, are one [DMut] node carrying the final contents. *)
From Verif Require Export Prog.

(** ** memdb/hash_struct.go *)
Notation hash := (gmap bytes val).

(** Hash.Set (hash_struct.go:15-22): number of added fields and new contents. *)
Definition hash_set (h : hash) (f : bytes) (v : val) : Z * hash :=
  ((match h !! f with None => 1 | Some _ => 0 end), <[f := v]> h).
(** Hash.Get (hash_struct.go:24-26): the zero value nil if absent. *)
Definition hash_get (h : hash) (f : bytes) : val := match h !! f with Some v => v | None => None end.
(** Hash.Del (hash_struct.go:28-34). *)
Definition hash_del (h : hash) (f : bytes) : Z * hash :=
  ((match h !! f with None => 0 | Some _ => 1 end), delete f h).
(** Hash.Len (hash_struct.go:36-38). *)
Definition hash_len (h : hash) : Z := Z.of_nat (size h).
(** The keys a `for range h.table` visits. *)
Definition hash_fields (h : hash) : list bytes := (map_to_list h).*1.

Section WithParams.
Context {P : Setup}.

(** Hash.IncrBy (hash_struct.go:77-91). *)
Definition hash_incrby (h : hash) (f : bytes) (i : Z) : option (Z * hash) :=
  match hash_get h f with
  | None => Some (i, <[f := Some (fmt_int i)]> h)
  | Some s => match atoi s with
              | None => None
              | Some n => let v := wrap64 (n + i) in Some (v, <[f := Some (fmt_int v)]> h)
              end
  end.

(** Hash.IncrByFloat (hash_struct.go:93-107). *)
Definition hash_incrbyfloat (h : hash) (f : bytes) (i : float) : option (float * hash) :=
  match hash_get h f with
  | None => Some (i, <[f := Some (fmt_float i)]> h)
  | Some s => match parse_float s with
              | None => None
              | Some n => let v := add_float n i in Some (v, <[f := Some (fmt_float v)]> h)
              end
  end.

(** The negative-count loop of Hash.Random / Set.Random (hash_struct.go:131-141,
    set_struct.go:140-151): one fresh iteration per drawn element. *)
Fixpoint draw_many (n : nat) (keys : list bytes) : prog (list bytes) :=
  match n with
  | O => Ret []
  | S n' => Range keys (fun o => match o with
                                 | [] => Hang
                                 | x :: _ => r <- draw_many n' keys ;; Ret (x :: r)
                                 end)
  end.

(** Hash.Random (hash_struct.go:109-145), Set.Random (set_struct.go:119-155) and the key part of
    RandomWithValue (hash_struct.go:147-188).  [sz] is the largest element size of the slices
    allocated (16 for strings, 24 for slices). *)
Definition random_keys (sz : Z) (keys : list bytes) (count : Z) : prog (list bytes) :=
  if (count =? 0) || (zlen keys =? 0) then Ret []
  else if 0 <? count then
    let c := if zlen keys <? count then zlen keys else count in
    Range keys (fun o => Ret (take (Z.to_nat c) o))
  else
    let n := wrap64 (- count) in
    if make_ok n sz then draw_many (Z.to_nat n) keys else Crash.

(** ** memdb/hash.go *)

(** Successive h.Del calls (hash.go:43-47). *)
Fixpoint hdel_all (h : hash) (fs : list val) : Z * hash :=
  match fs with
  | [] => (0, h)
  | f :: r => let '(a, h1) := hash_del h (str f) in
              let '(b, h2) := hdel_all h1 r in (a + b, h2)
  end.

(** hDelHash (hash.go:9-50). *)
Definition hdel_hash (cmd : command) : prog rdata :=
  match cmd with
  | _ :: k :: f :: fs =>
      let key := str k in
      e <- delete_expired_key key ;;
      if e then Ret (RInt 0)
      else with_lock MW key (
        v <- dict_get key ;;
        match v with
        | None => Ret (RInt 0)
        | Some (VHash h) =>
            let '(n, h') := hdel_all h (f :: fs) in
            obj_put key (VHash h') ;;;
            (if hash_len h' =? 0 then dict_del key ;;; delete_expire key ;;; Ret tt else Ret tt) ;;;
            Ret (RInt n)
        | Some _ => Ret err_wrong_kind
        end)
  | _ => Ret err_args
  end.

(** The common shape of the read-only hash commands: [gone] is the reply when the key is
    expired or missing. *)
Definition hash_read (k : val) (gone : rdata) (f : hash -> prog rdata) : prog rdata :=
  let key := str k in
  e <- delete_expired_key key ;;
  if e then Ret gone
  else with_lock MR key (
    v <- dict_get key ;;
    match v with
    | None => Ret gone
    | Some (VHash h) => f h
    | Some _ => Ret err_wrong_kind
    end).

(** hExistsHash (hash.go:52-84). *)
Definition hexists_hash (cmd : command) : prog rdata :=
  match cmd with
  | [_; k; f] => hash_read k (RInt 0) (fun h =>
      Ret (RInt (match h !! str f with Some _ => 1 | None => 0 end)))
  | _ => Ret err_args
  end.

(** hGetHash (hash.go:86-116). *)
Definition hget_hash (cmd : command) : prog rdata :=
  match cmd with
  | [_; k; f] => hash_read k rnil (fun h => Ret (RBulk (hash_get h (str f))))
  | _ => Ret err_args
  end.

(** hGetAllHash (hash.go:118-153). *)
Definition hgetall_hash (cmd : command) : prog rdata :=
  match cmd with
  | [_; k] => hash_read k (RArr (Some [])) (fun h =>
      Range (hash_fields h) (fun o =>
        Ret (RArr (Some (concat (map (fun f => [RBulk (Some f); RBulk (hash_get h f)]) o))))))
  | _ => Ret err_args
  end.

(** hIncrByHash (hash.go:155-192).  The hash is created before the increment is parsed. *)
Definition hincrby_hash (cmd : command) : prog rdata :=
  match cmd with
  | [_; k; f; d] =>
      let key := str k in
      delete_expired_key key ;;;
      with_lock MW key (
        v <- dict_get key ;;
        let go (h : hash) : prog rdata :=
          match atoi (str d) with
          | None => Ret err_int
          | Some i =>
              match hash_incrby h (str f) i with
              | None => Ret (RErr (B "hash value is not an integer"))
              | Some (n, h') => obj_put key (VHash h') ;;; Ret (RInt n)
              end
          end in
        match v with
        | None => dict_set key (VHash ∅) ;;; go ∅
        | Some (VHash h) => go h
        | Some _ => Ret err_wrong_kind
        end)
  | _ => Ret err_args
  end.

(** hIncrByFloatHash (hash.go:194-232). *)
Definition hincrbyfloat_hash (cmd : command) : prog rdata :=
  match cmd with
  | [_; k; f; d] =>
      let key := str k in
      delete_expired_key key ;;;
      with_lock MW key (
        v <- dict_get key ;;
        let go (h : hash) : prog rdata :=
          match parse_float (str d) with
          | None => Ret err_float
          | Some i =>
              match hash_incrbyfloat h (str f) i with
              | None => Ret (RErr (B "hash value is not an float"))
              | Some (n, h') => obj_put key (VHash h') ;;; Ret (RBulk (Some (fmt_float n)))
              end
          end in
        match v with
        | None => dict_set key (VHash ∅) ;;; go ∅
        | Some (VHash h) => go h
        | Some _ => Ret err_wrong_kind
        end)
  | _ => Ret err_args
  end.

(** hKeysHash (hash.go:234-269). *)
Definition hkeys_hash (cmd : command) : prog rdata :=
  match cmd with
  | [_; k] => hash_read k (RArr (Some [])) (fun h =>
      Range (hash_fields h) (fun o => Ret (RArr (Some (rbulks o)))))
  | _ => Ret err_args
  end.

(** hLenHash (hash.go:271-298). *)
Definition hlen_hash (cmd : command) : prog rdata :=
  match cmd with
  | [_; k] => hash_read k (RInt 0) (fun h => Ret (RInt (hash_len h)))
  | _ => Ret err_args
  end.

(** hMGetHash (hash.go:300-336). *)
Definition hmget_hash (cmd : command) : prog rdata :=
  match cmd with
  | _ :: k :: f :: fs => hash_read k (RArr (Some [])) (fun h =>
      Ret (RArr (Some (map (fun x => RBulk (hash_get h (str x))) (f :: fs)))))
  | _ => Ret err_args
  end.

(** The h.Set loop of HSET/HMSET (hash.go:363-367, 398-402); [None]: odd number of
    arguments (rejected before by the arity test). *)
Fixpoint hset_all (h : hash) (l : list val) : option (Z * hash) :=
  match l with
  | [] => Some (0, h)
  | f :: v :: r =>
      let '(a, h1) := hash_set h (str f) v in
      match hset_all h1 r with
      | Some (b, h2) => Some (a + b, h2)
      | None => None
      end
  | [_] => None
  end.

(** Common part of hMSetHash and hSetHash (hash.go:338-405). *)
Definition hset_common (cmd : command) (reply : Z -> rdata) : prog rdata :=
  match cmd with
  | _ :: k :: f :: v :: r =>
      if Nat.odd (length cmd) then Ret err_args
      else
        let key := str k in
        delete_expired_key key ;;;
        with_lock MW key (
          x <- dict_get key ;;
          let go (h : hash) : prog rdata :=
            match hset_all h (f :: v :: r) with
            | None => Crash                       (* cmd[i+1]; unreachable, see the parity test *)
            | Some (n, h') => obj_put key (VHash h') ;;; Ret (reply n)
            end in
          match x with
          | None => dict_set key (VHash ∅) ;;; go ∅
          | Some (VHash h) => go h
          | Some _ => Ret err_wrong_kind
          end)
  | _ => Ret err_args
  end.
Definition hmset_hash (cmd : command) : prog rdata := hset_common cmd (fun _ => ok).
Definition hset_hash (cmd : command) : prog rdata := hset_common cmd RInt.

(** hSetNxHash (hash.go:407-440): any existing key, of any type, answers 0. *)
Definition hsetnx_hash (cmd : command) : prog rdata :=
  match cmd with
  | [_; k; f; v] =>
      let key := str k in
      delete_expired_key key ;;;
      with_lock MW key (
        x <- dict_get key ;;
        match x with
        | Some _ => Ret (RInt 0)
        | None =>
            dict_set key (VHash ∅) ;;;
            obj_put key (VHash {[ str f := v ]}) ;;;
            Ret (RInt 1)
        end)
  | _ => Ret err_args
  end.

(** hValsHash (hash.go:442-477). *)
Definition hvals_hash (cmd : command) : prog rdata :=
  match cmd with
  | [_; k] => hash_read k (RArr (Some [])) (fun h =>
      Range (hash_fields h) (fun o => Ret (RArr (Some (map (fun f => RBulk (hash_get h f)) o)))))
  | _ => Ret err_args
  end.

(** hStrLenHash (hash.go:479-507). *)
Definition hstrlen_hash (cmd : command) : prog rdata :=
  match cmd with
  | [_; k; f] => hash_read k (RInt 0) (fun h => Ret (RInt (zlen (str (hash_get h (str f))))))
  | _ => Ret err_args
  end.

(** hRandFieldHash (hash.go:509-575). *)
Definition hrandfield_run (k : val) (count : Z) (withvalues : bool) : prog rdata :=
  let key := str k in
  with_lock MR key (
    v <- dict_get key ;;
    match v with
    | None => Ret rnil
    | Some (VHash h) =>
        if count =? 1 then
          fs <- random_keys 16 (hash_fields h) 1 ;;
          match fs with
          | [] => Crash                                    (* fields[0] *)
          | f :: _ => Ret (RBulk (Some f))
          end
        else if withvalues then
          fs <- random_keys 24 (hash_fields h) count ;;
          Ret (RArr (Some (concat (map (fun f => [RBulk (Some f); RBulk (hash_get h f)]) fs))))
        else
          fs <- random_keys 16 (hash_fields h) count ;;
          Ret (RArr (Some (rbulks fs)))
    | Some _ => Ret err_wrong_kind
    end).
Definition hrandfield_hash (cmd : command) : prog rdata :=
  match cmd with
  | [_; k] =>
      e <- delete_expired_key (str k) ;;
      if e then Ret rnil else hrandfield_run k 1 false
  | [_; k; n] =>
      e <- delete_expired_key (str k) ;;
      if e then Ret rnil
      else match atoi (str n) with
           | None => Ret err_int
           | Some c => hrandfield_run k c false
           end
  | [_; k; n; w] =>
      e <- delete_expired_key (str k) ;;
      if e then Ret rnil
      else match atoi (str n) with
           | None => Ret err_int
           | Some c => if beq (to_lower (str w)) (B "withvalues")
                       then hrandfield_run k c true
                       else Ret err_syntax
           end
  | _ => Ret err_args
  end.

End WithParams.
