(** Model of memdb/set.go and memdb/set_struct.go. *)
From Verif Require Export CmdHash.

(** ** memdb/set_struct.go *)
Notation mset := (gset bytes).
(** Set.Len (set_struct.go:18-20). *)
Definition set_len (s : mset) : Z := Z.of_nat (size s).
(** Set.Add (set_struct.go:22-28). *)
Definition set_add (s : mset) (x : bytes) : Z * mset :=
  if bool_decide (x ∈ s) then (0, s) else (1, {[x]} ∪ s).
(** Set.Remove (set_struct.go:30-36). *)
Definition set_rem (s : mset) (x : bytes) : Z * mset :=
  if bool_decide (x ∈ s) then (1, s ∖ {[x]}) else (0, s).
(** Set.Union / Intersect / Difference (set_struct.go:69-108).  Their loops build the result
    element by element; the result does not depend on the iteration order. *)
Inductive setop := OpUnion | OpInter | OpDiff.
Definition set_op (op : setop) (s : mset) (sets : list mset) : mset :=
  match op with
  | OpUnion => fold_left (fun a b => a ∪ b) sets s
  | OpInter => fold_left (fun a b => a ∩ b) sets s
  | OpDiff => fold_left (fun a b => a ∖ b) sets s
  end.

Section WithParams.
Context {P : Setup}.

(** Set.Pop (set_struct.go:38-44): first key of an iteration, or "". *)
Definition set_pop (s : mset) : prog (bytes * mset) :=
  Range (elements s) (fun o =>
    match o with
    | [] => Ret ([], s)
    | x :: _ => Ret (x, s ∖ {[x]})
    end).

(** ** memdb/set.go *)

Fixpoint sadd_all (s : mset) (l : list val) : Z * mset :=
  match l with
  | [] => (0, s)
  | x :: r => let '(a, s1) := set_add s (str x) in
              let '(b, s2) := sadd_all s1 r in (a + b, s2)
  end.
Fixpoint srem_all (s : mset) (l : list val) : Z * mset :=
  match l with
  | [] => (0, s)
  | x :: r => let '(a, s1) := set_rem s (str x) in
              let '(b, s2) := srem_all s1 r in (a + b, s2)
  end.

(** sAddSet (set.go:8-39). *)
Definition sadd_set (cmd : command) : prog rdata :=
  match cmd with
  | _ :: k :: x :: xs =>
      let key := str k in
      delete_expired_key key ;;;
      with_lock MW key (
        v <- dict_get key ;;
        let go (s : mset) : prog rdata :=
          let '(n, s') := sadd_all s (x :: xs) in
          obj_put key (VSet s') ;;; Ret (RInt n) in
        match v with
        | None => dict_set key (VSet ∅) ;;; go ∅
        | Some (VSet s) => go s
        | Some _ => Ret err_wrong_kind
        end)
  | _ => Ret err_args
  end.

(** The common shape of the read-only single-set commands. *)
Definition set_read (k : val) (gone : rdata) (f : mset -> prog rdata) : prog rdata :=
  let key := str k in
  e <- delete_expired_key key ;;
  if e then Ret gone
  else with_lock MR key (
    v <- dict_get key ;;
    match v with
    | None => Ret gone
    | Some (VSet s) => f s
    | Some _ => Ret err_wrong_kind
    end).

(** sCardSet (set.go:41-67). *)
Definition scard_set (cmd : command) : prog rdata :=
  match cmd with
  | [_; k] => set_read k (RInt 0) (fun s => Ret (RInt (set_len s)))
  | _ => Ret err_args
  end.

(** sIsMemberSet (set.go:367-399). *)
Definition sismember_set (cmd : command) : prog rdata :=
  match cmd with
  | [_; k; m] => set_read k (RInt 0) (fun s => Ret (RInt (if bool_decide (str m ∈ s) then 1 else 0)))
  | _ => Ret err_args
  end.

(** sMembersSet (set.go:401-433): the reply is the null array when there is no member. *)
Definition smembers_set (cmd : command) : prog rdata :=
  match cmd with
  | [_; k] => set_read k (RArr None) (fun s =>
      Range (elements s) (fun o => Ret (rarr_nilable (rbulks o))))
  | _ => Ret err_args
  end.

(** Purging and collecting the operand keys (set.go:74-82 and alike): expired keys are dropped. *)
Fixpoint live_keys (ks : list val) (acc : list bytes) : prog (list bytes) :=
  match ks with
  | [] => Ret acc
  | k :: r =>
      e <- delete_expired_key (str k) ;;
      live_keys r (if e then acc else acc ++ [str k])
  end.

(** Reading the other operands: [inr tt] on a wrong type.  [missing] says what a missing key
    contributes: SINTER/SDIFF/SUNION use an empty set (set.go:108-122, 257-271, 688-702),
    the STORE variants skip it (set.go:196-207, 345-356, 776-787). *)
Fixpoint read_sets (missing : list mset) (ks : list bytes) (acc : list mset)
  : prog (list mset + unit) :=
  match ks with
  | [] => Ret (inl acc)
  | k :: r =>
      v <- dict_get k ;;
      match v with
      | None => read_sets missing r (acc ++ missing)
      | Some (VSet s) => read_sets missing r (acc ++ [s])
      | Some _ => Ret (inr tt)
      end
  end.

(** sInterSet, sDiffSet, sUnionSet (set.go:69-131, 218-280, 649-711).  With a single operand the
    set itself is listed, which is what the operation on no further set gives. *)
Definition setop_set (op : setop) (cmd : command) : prog rdata :=
  match cmd with
  | _ :: k :: r =>
      keys <- live_keys (k :: r) [] ;;
      with_mlock MR keys (
        match keys with
        | [] => Crash                                   (* keys[0] *)
        | k0 :: ks =>
            v <- dict_get k0 ;;
            let go (s : mset) : prog rdata :=
              sets <- read_sets [∅] ks [] ;;
              match sets with
              | inr _ => Ret err_wrong_kind
              | inl sets =>
                  Range (elements (set_op op s sets)) (fun o => Ret (rarr_nilable (rbulks o)))
              end in
            match v with
            | None => go ∅
            | Some (VSet s) => go s
            | Some _ => Ret err_wrong_kind
            end
        end)
  | _ => Ret err_args
  end.
Definition sinter_set : command -> prog rdata := setop_set OpInter.
Definition sdiff_set : command -> prog rdata := setop_set OpDiff.
Definition sunion_set : command -> prog rdata := setop_set OpUnion.

(** sInterStoreSet, sDiffStoreSet, sUnionStoreSet (set.go:133-216, 282-365, 713-796).
    The destination is written by a deferred function, hence also on the wrong-type
    exit of the operand loop. *)
Definition setopstore_set (op : setop) (cmd : command) : prog rdata :=
  match cmd with
  | _ :: d :: k :: r =>
      let dest := str d in
      delete_expired_key dest ;;;
      keys <- live_keys (k :: r) [] ;;
      match keys with
      | [] => Ret (RInt 0)
      | k0 :: ks =>
          with_mlock MW (dest :: keys) (
            v <- dict_get k0 ;;
            let go (s : mset) : prog rdata :=
              old <- dict_get dest ;;
              sets <- read_sets [] ks [] ;;
              let '(reply, destSet) :=
                match sets with
                | inr _ => (err_wrong_kind, ∅)
                | inl sets => let res := set_op op s sets in (RInt (set_len res), res)
                end in
              dict_set dest (VSet destSet) ;;;
              (match old with Some _ => delete_expire dest | None => Ret false end) ;;;
              Ret reply in
            match v with
            | None => go ∅
            | Some (VSet s) => go s
            | Some _ => Ret err_wrong_kind
            end)
      end
  | _ => Ret err_args
  end.
Definition sinterstore_set : command -> prog rdata := setopstore_set OpInter.
Definition sdiffstore_set : command -> prog rdata := setopstore_set OpDiff.
Definition sunionstore_set : command -> prog rdata := setopstore_set OpUnion.

(** The deferred clean-up (set.go:466-471, 527-532). *)
Definition sdrop_if_empty (key : bytes) (s : mset) : prog unit :=
  if set_len s =? 0 then dict_del key ;;; delete_expire key ;;; Ret tt else Ret tt.

(** sMoveSet (set.go:435-486).  The two set objects are one when the keys are equal,
    so after the removal from the source the destination is read again. *)
Definition smove_set (cmd : command) : prog rdata :=
  match cmd with
  | [_; a; b; m] =>
      let src := str a in
      e <- delete_expired_key src ;;
      if e then Ret (RInt 0)
      else
        let des := str b in
        e <- delete_expired_key des ;;
        if e then Ret (RInt 0)
        else
          let x := str m in
          with_mlock MW [src; des] (
            sv <- dict_get src ;;
            match sv with
            | None => Ret (RInt 0)
            | Some (VSet s) =>
                dv <- dict_get des ;;
                r <- match dv with
                     | None => Ret (RInt 0)
                     | Some (VSet _) =>
                         if bool_decide (x ∈ s) then
                           obj_put src (VSet (snd (set_rem s x))) ;;;
                           d <- dict_get des ;;
                           match d with
                           | Some (VSet ds) =>
                               obj_put des (VSet (snd (set_add ds x))) ;;; Ret (RInt 1)
                           | _ => Crash                          (* unreachable: des holds a set *)
                           end
                         else Ret (RInt 0)
                     | Some _ => Ret err_wrong_kind
                     end ;;
                s' <- dict_get src ;;                            (* deferred: srcSet.Len() == 0 *)
                match s' with
                | Some (VSet s') => sdrop_if_empty src s'
                | _ => Ret tt                                    (* unreachable *)
                end ;;;
                Ret r
            | Some _ => Ret err_wrong_kind
            end)
  | _ => Ret err_args
  end.

(** The popping loop (set.go:546-549). *)
Fixpoint pop_many (n : nat) (s : mset) : prog (list bytes * mset) :=
  match n with
  | O => Ret ([], s)
  | S n' => p <- set_pop s ;;
            q <- pop_many n' (snd p) ;;
            Ret (fst p :: fst q, snd q)
  end.

(** sPopSet (set.go:488-552). *)
Definition spop_run (k : val) (count : option Z) : prog rdata :=
  let key := str k in
  with_lock MW key (
    v <- dict_get key ;;
    match v with
    | None => Ret rnil
    | Some (VSet s) =>
        match count with
        | None =>
            p <- set_pop s ;;
            obj_put key (VSet (snd p)) ;;; sdrop_if_empty key (snd p) ;;;
            Ret (match fst p with [] => rnil | x => RBulk (Some x) end)
        | Some c =>
            let n := if set_len s <? c then set_len s else c in
            q <- pop_many (Z.to_nat n) s ;;
            obj_put key (VSet (snd q)) ;;; sdrop_if_empty key (snd q) ;;;
            Ret (RArr (Some (rbulks (fst q))))
        end
    | Some _ => Ret err_wrong_kind
    end).
Definition spop_set (cmd : command) : prog rdata :=
  match cmd with
  | [_; k] =>
      e <- delete_expired_key (str k) ;;
      if e then Ret rnil else spop_run k None
  | [_; k; n] =>
      e <- delete_expired_key (str k) ;;
      if e then Ret rnil
      else match atoi (str n) with
           | None => Ret err_int
           | Some c => if c <=? 0 then Ret (RErr (B "value must be positive"))
                       else spop_run k (Some c)
           end
  | _ => Ret err_args
  end.

(** sRandMemberSet (set.go:554-615). *)
Definition srandmember_run (k : val) (count : option Z) : prog rdata :=
  let key := str k in
  with_lock MR key (
    v <- dict_get key ;;
    match v with
    | None => Ret rnil
    | Some (VSet s) =>
        match count with
        | None =>
            l <- random_keys 16 (elements s) 1 ;;
            match l with
            | [] => Crash                                       (* rand[0] *)
            | [] :: _ => Ret rnil
            | x :: _ => Ret (RBulk (Some x))
            end
        | Some c =>
            if make_ok (if c <? 0 then wrap64 (- c) else c) 16 then
              l <- random_keys 16 (elements s) c ;;
              Ret (RArr (Some (rbulks l)))
            else Crash
        end
    | Some _ => Ret err_wrong_kind
    end).
Definition srandmember_set (cmd : command) : prog rdata :=
  match cmd with
  | [_; k] =>
      e <- delete_expired_key (str k) ;;
      if e then Ret rnil else srandmember_run k None
  | [_; k; n] =>
      e <- delete_expired_key (str k) ;;
      if e then Ret rnil
      else match atoi (str n) with
           | None => Ret err_int
           | Some c => if c =? 0 then Ret rnil else srandmember_run k (Some c)
           end
  | _ => Ret err_args
  end.

(** sRemSet (set.go:617-647): an emptied set stays. *)
Definition srem_set (cmd : command) : prog rdata :=
  match cmd with
  | _ :: k :: x :: xs =>
      let key := str k in
      delete_expired_key key ;;;
      with_lock MW key (
        v <- dict_get key ;;
        match v with
        | None => Ret (RInt 0)
        | Some (VSet s) =>
            let '(n, s') := srem_all s (x :: xs) in
            obj_put key (VSet s') ;;; Ret (RInt n)
        | Some _ => Ret err_wrong_kind
        end)
  | _ => Ret err_args
  end.

End WithParams.
