(** Model of memdb/keys.go. *)
From Verif Require Export Prog Glob.

Section WithParams.
Context {P : Setup}.

(** pingKeys (memdb/keys.go:12-20). *)
Definition ping_keys (cmd : command) : prog rdata :=
  match cmd with
  | [] | [_] => Ret (RStr (B "PONG"))     (* len(cmd) = 0 cannot reach an executor *)
  | [_; v] => Ret (RBulk v)
  | _ => Ret err_args
  end.

(** delKey (memdb/keys.go:22-39). *)
Fixpoint del_loop (ks : list val) (deleted : Z) : prog Z :=
  match ks with
  | [] => Ret deleted
  | k :: r =>
      let key := str k in
      e <- delete_expired_key key ;;
      if e then del_loop r deleted
      else
        n <- with_lock MW key (b <- dict_del key ;; delete_expire key ;;; Ret (if b then 1 else 0)) ;;
        del_loop r (deleted + n)
  end.
Definition del_key (cmd : command) : prog rdata :=
  match cmd with
  | _ :: k :: r => n <- del_loop (k :: r) 0 ;; Ret (RInt n)
  | _ => Ret err_args
  end.

(** existsKey (memdb/keys.go:41-59). *)
Fixpoint exists_loop (ks : list val) (n : Z) : prog Z :=
  match ks with
  | [] => Ret n
  | k :: r =>
      let key := str k in
      e <- delete_expired_key key ;;
      if e then exists_loop r n
      else
        m <- with_lock MR key (v <- dict_get key ;; Ret (match v with Some _ => 1 | None => 0 end)) ;;
        exists_loop r (n + m)
  end.
Definition exists_key (cmd : command) : prog rdata :=
  match cmd with
  | _ :: k :: r => n <- exists_loop (k :: r) 0 ;; Ret (RInt n)
  | _ => Ret err_args
  end.

(** ConcurrentMap.Keys (memdb/concurrentMap.go:100-112).  The result array is sized from
    the counter before the segments are visited; writing past its end panics;
    unused slots stay "". *)
(** Filling element by element; the panic happens at the first key that does not fit.  Since no
    other shared access happens between segments, it is equivalent to raise it when
    the segment that overflows has been read. *)
Fixpoint keys_fill (n : nat) (i : N) (room : Z) : prog (list bytes) :=
  match n with
  | O => Ret (replicate (Z.to_nat room) [])
  | S n' => DSeg i (fun l =>
              if room <? zlen l then Crash
              else r <- keys_fill n' (i + 1)%N (room - zlen l) ;; Ret (l ++ r))
  end.
Definition dict_keys : prog (list bytes) :=
  CntLoad (fun c => if make_ok c 16 then keys_fill (Pos.to_nat segnum) 0%N c else Crash).

(** keysKey (memdb/keys.go:61-79). *)
Fixpoint keys_loop (pattern : bytes) (ks : list bytes) : prog (list rdata) :=
  match ks with
  | [] => Ret []
  | key :: r =>
      e <- delete_expired_key key ;;
      if e then keys_loop pattern r
      else match glob pattern key with
           | GOk true => l <- keys_loop pattern r ;; Ret (RBulk (Some key) :: l)
           | GOk false => keys_loop pattern r
           | GPanic => Crash
           | GFuel => Hang
           end
  end.
Definition keys_key (cmd : command) : prog rdata :=
  match cmd with
  | [_; p] =>
      ks <- dict_keys ;;
      l <- keys_loop (str p) ks ;;
      Ret (RArr (Some l))
  | _ => Ret err_args
  end.

(** expireKey after the arity check (memdb/keys.go:92-136); [opt] is the lower-cased option,
    "" if there is none. *)
Definition expire_run (k n : val) (opt rawopt : bytes) : prog rdata :=
    match atoi (str n) with
    | None => Ret err_int
    | Some v =>
        now <- now_unix ;;
        let ttl := wrap64 (now + v) in
        let key := str k in
        e <- delete_expired_key key ;;
        if e then Ret (RInt 0)
        else with_lock MW key (
          if beq opt (B "nx") then
            t <- exp_get key ;;
            match t with
            | None => r <- set_expire key ttl ;; Ret (RInt r)
            | Some _ => Ret (RInt 0)
            end
          else if beq opt (B "xx") then
            t <- exp_get key ;;
            match t with
            | Some _ => r <- set_expire key ttl ;; Ret (RInt r)
            | None => Ret (RInt 0)
            end
          else if beq opt (B "gt") then
            t <- exp_get key ;;
            match t with
            | Some t0 => if t0 <? ttl then r <- set_expire key ttl ;; Ret (RInt r) else Ret (RInt 0)
            | None => Ret (RInt 0)
            end
          else if beq opt (B "lt") then
            t <- exp_get key ;;
            match t with
            | Some t0 => if ttl <? t0 then r <- set_expire key ttl ;; Ret (RInt r) else Ret (RInt 0)
            | None => Ret (RInt 0)
            end
          else if beq opt [] then
            r <- set_expire key ttl ;; Ret (RInt r)
          else Ret (RErr (B "Unsupported option " ++ rawopt)))
    end.
(** expireKey (memdb/keys.go:86-136). *)
Definition expire_key (cmd : command) : prog rdata :=
  match cmd with
  | [_; k; n] => expire_run k n [] []
  | [_; k; n; o] => expire_run k n (to_lower (str o)) (str o)
  | _ => Ret err_args
  end.

(** persistKey (memdb/keys.go:138-153). *)
Definition persist_key (cmd : command) : prog rdata :=
  match cmd with
  | [_; k] =>
      let key := str k in
      e <- delete_expired_key key ;;
      if e then Ret (RInt 0)
      else with_lock MW key (delete_expire key ;;; Ret (RInt 1))
  | _ => Ret err_args
  end.

(** ttlKey (memdb/keys.go:155-178). *)
Definition ttl_key (cmd : command) : prog rdata :=
  match cmd with
  | [_; k] =>
      let key := str k in
      e <- delete_expired_key key ;;
      if e then Ret (RInt (-2))
      else with_lock MR key (
        v <- dict_get key ;;
        match v with
        | None => Ret (RInt (-2))
        | Some _ =>
            now <- now_unix ;;
            t <- exp_get key ;;
            match t with
            | None => Ret (RInt (-1))
            | Some t => Ret (RInt (wrap64 (t - now)))
            end
        end)
  | _ => Ret err_args
  end.

(** renameKey (memdb/keys.go:180-215). *)
Definition rename_key (cmd : command) : prog rdata :=
  match cmd with
  | [_; a; b] =>
      let newKey := str b in
      let oldKey := str a in
      e <- delete_expired_key oldKey ;;
      if e then Ret err_no_key
      else with_mlock MW [oldKey; newKey] (
        v <- dict_get oldKey ;;
        match v with
        | None => Ret err_no_key
        | Some oldValue =>
            ttl <- exp_get oldKey ;;
            dict_del oldKey ;;; delete_expire oldKey ;;;
            dict_del newKey ;;; delete_expire newKey ;;;
            dict_set newKey oldValue ;;;
            match ttl with
            | Some t => set_expire newKey t ;;; Ret ok
            | None => Ret ok
            end
        end)
  | _ => Ret err_args
  end.

(** typeKey (memdb/keys.go:217-247). *)
Definition type_key (cmd : command) : prog rdata :=
  match cmd with
  | [_; k] =>
      let key := str k in
      e <- delete_expired_key key ;;
      if e then Ret (RStr (B "none"))
      else with_lock MR key (
        v <- dict_get key ;;
        match v with
        | None => Ret (RStr (B "none"))
        | Some (VStr _) => Ret (RStr (B "string"))
        | Some (VHash _) => Ret (RStr (B "hash"))
        | Some (VList _) => Ret (RStr (B "list"))
        | Some (VSet _) => Ret (RStr (B "set"))
        end)
  | _ => Ret err_args
  end.

End WithParams.
