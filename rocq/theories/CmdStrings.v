(** Model of memdb/strings.go. *)
From Verif Require Export Prog.

(** Result of append(v, apd...) as a Go slice: nil only if both operands contribute nothing to a nil slice. *)
Definition go_append (v : val) (apd : bytes) : val :=
  match v, apd with
  | None, [] => None
  | _, _ => Some (str v ++ apd)
  end.

(** Option record of setString (memdb/strings.go:33-36). *)
Record sopts := mkSopts {
  o_nx : bool; o_xx : bool; o_get : bool; o_ex : option Z; o_px : option Z;
  o_keepttl : bool; o_num : nat }.
Definition no_opts : sopts := mkSopts false false false None None false 0.

(** Result of the option loop. *)
Inductive sparse := SP_ok (o : sopts) | SP_err (e : rdata) | SP_crash.

(** The option loop (memdb/strings.go:37-93).
    - EX/PX as the last argument: the missing-argument check only builds an error
      value and drops it, so cmd[i] panics (:49-52, :60-63).
    - EX with a bad number: the error is built and dropped; ParseInt's value (0, or the
      clamped bound) is used (:52-55).
    - EXAT/PXAT do not advance i, so they parse their own name, which always fails (:67-86). *)
Fixpoint set_opts (args : list val) (o : sopts) : sparse :=
  match args with
  | [] => SP_ok o
  | a :: r =>
      let w := to_lower (str a) in
      if beq w (B "nx") then
        set_opts r (mkSopts true (o_xx o) (o_get o) (o_ex o) (o_px o) (o_keepttl o) (o_num o))
      else if beq w (B "xx") then
        set_opts r (mkSopts (o_nx o) true (o_get o) (o_ex o) (o_px o) (o_keepttl o) (o_num o))
      else if beq w (B "get") then
        set_opts r (mkSopts (o_nx o) (o_xx o) true (o_ex o) (o_px o) (o_keepttl o) (o_num o))
      else if beq w (B "ex") then
        match r with
        | [] => SP_crash
        | n :: r' =>
            set_opts r' (mkSopts (o_nx o) (o_xx o) (o_get o) (Some (fst (parse_int (str n))))
                                 (o_px o) (o_keepttl o) (S (o_num o)))
        end
      else if beq w (B "px") then
        match r with
        | [] => SP_crash
        | n :: r' =>
            match parse_int (str n) with
            | (v, None) =>
                set_opts r' (mkSopts (o_nx o) (o_xx o) (o_get o) (o_ex o) (Some v)
                                     (o_keepttl o) (S (o_num o)))
            | _ => SP_err err_int
            end
        end
      else if beq w (B "exat") || beq w (B "pxat") then
        match parse_int (str a) with
        | (v, None) => SP_ok o      (* unreachable: the keyword is not a number *)
        | _ => SP_err err_int
        end
      else if beq w (B "keepttl") then
        set_opts r (mkSopts (o_nx o) (o_xx o) (o_get o) (o_ex o) (o_px o) true (S (o_num o)))
      else SP_err (RErr (B "Unsupported option " ++ str a))
  end.

Definition err_set_not_string : rdata := RErr (B "The value stored at key is not a string").
Definition err_offset : rdata := RErr (B "offset is out of range").

Section WithParams.
Context {P : Setup}.

(** setString (memdb/strings.go:21-158).  The exat/pxat branches (:150-155) are
    unreachable because option parsing fails first. *)
Definition set_string (cmd : command) : prog rdata :=
  match cmd with
  | _ :: k :: v :: args =>
      let key := str k in
      delete_expired_key key ;;;
      match set_opts args no_opts with
      | SP_crash => Crash
      | SP_err e => Ret e
      | SP_ok o =>
          if (o_nx o && o_xx o) || Nat.ltb 1 (o_num o) then Ret err_syntax
          else with_lock MW key (
            old <- dict_get key ;;
            let body (oldv : option val) : prog rdata :=
              let oldOk := match oldv with Some _ => true | None => false end in
              let doit := if o_nx o then negb oldOk else if o_xx o then oldOk else true in
              (if doit then dict_set key (VStr v) else Ret tt) ;;;
              let res :=
                if o_get o then RBulk (match oldv with Some s => s | None => None end)
                else if doit then ok else rnil in
              (if o_keepttl o then Ret false else delete_expire key) ;;;
              match o_ex o with
              | Some n => now <- now_unix ;; set_expire key (wrap64 (now + n))
              | None => Ret 0
              end ;;;
              match o_px o with
              | Some n => now <- now_unix ;; set_expire key (wrap64 (now + Z.quot n 1000))
              | None => Ret 0
              end ;;;
              Ret res in
            match old with
            | None => body None
            | Some (VStr s) => body (Some s)
            | Some _ => Ret err_set_not_string
            end)
      end
  | _ => Ret err_args
  end.

(** getString (memdb/strings.go:160-184). *)
Definition get_string (cmd : command) : prog rdata :=
  match cmd with
  | [_; k] =>
      let key := str k in
      e <- delete_expired_key key ;;
      if e then Ret rnil
      else with_lock MR key (
        v <- dict_get key ;;
        match v with
        | Some (VStr s) => Ret (RBulk s)
        | Some _ => Ret err_not_string
        | None => Ret rnil
        end)
  | _ => Ret err_args
  end.

(** The index arithmetic of getRangeString (memdb/strings.go:219-239). *)
Definition get_range (v : val) (start0 end0 : Z) : rdata :=
  let len := zlen (str v) in
  let start := if start0 <? 0 then wrap64 (len + start0) else start0 in
  let end1 := if end0 <? 0 then wrap64 (len + end0) else end0 in
  let end2 := wrap64 (end1 + 1) in
  if (end2 <? start) || (len <=? start) || (end2 <? 0) then RBulk (Some [])
  else
    let start' := if start <? 0 then 0 else start in
    let end' := if len <? end2 then len else end2 in
    (* v[start:end] is nil iff v is nil *)
    match v with
    | None => RBulk None
    | Some s => RBulk (Some (take (Z.to_nat (end' - start')) (drop (Z.to_nat start') s)))
    end.

(** getRangeString (memdb/strings.go:186-240). *)
Definition getrange_string (cmd : command) : prog rdata :=
  match cmd with
  | [_; k; a; b] =>
      let key := str k in
      e <- delete_expired_key key ;;
      if e then Ret (RBulk (Some []))
      else match atoi (str a), atoi (str b) with
      | Some start, Some end_ =>
          with_lock MR key (
            v <- dict_get key ;;
            match v with
            | None => Ret (RBulk (Some []))
            | Some (VStr s) => Ret (get_range s start end_)
            | Some _ => Ret err_not_string
            end)
      | _, _ => Ret err_int
      end
  | _ => Ret err_args
  end.

(** The new contents computed by setRangeString (memdb/strings.go:277-286);
    [None]: make([]byte, offset-len(oldVal)) panics.
    (Growing the slice beyond maxAlloc, or running out of memory, is not modelled.) *)
Definition set_range (old : val) (offset : Z) (value : bytes) : option val :=
  let len := zlen (str old) in
  if len <? offset then
    if make_ok (offset - len) 1
    then Some (go_append (go_append old (replicate (Z.to_nat (offset - len)) (ascii_of_N 0))) value)
    else None
  else Some (go_append (match old with None => None | Some s => Some (take (Z.to_nat offset) s) end) value).

(** setRangeString (memdb/strings.go:242-289). *)
Definition setrange_string (cmd : command) : prog rdata :=
  match cmd with
  | [_; k; n; v] =>
      let key := str k in
      delete_expired_key key ;;;
      match atoi (str n) with
      | None => Ret err_int
      | Some offset =>
          if offset <? 0 then Ret err_offset
          else with_lock MW key (
            x <- dict_get key ;;
            let go (old : val) : prog rdata :=
              match set_range old offset (str v) with
              | None => Crash
              | Some nv => dict_set key (VStr nv) ;;; Ret (RInt (zlen (str nv)))
              end in
            match x with
            | None => go (Some [])
            | Some (VStr s) => go s
            | Some _ => Ret err_not_string
            end)
      end
  | _ => Ret err_args
  end.

(** mGetString (memdb/strings.go:291-318). *)
Fixpoint mget_loop (ks : list val) (acc : list rdata) : prog (list rdata) :=
  match ks with
  | [] => Ret acc
  | k :: r =>
      let key := str k in
      e <- delete_expired_key key ;;
      if e then mget_loop r acc
      else
        x <- with_lock MR key (
               v <- dict_get key ;;
               match v with
               | Some (VStr s) => Ret (RBulk s)
               | _ => Ret rnil
               end) ;;
        mget_loop r (acc ++ [x])
  end.
Definition mget_string (cmd : command) : prog rdata :=
  match cmd with
  | _ :: k :: r => l <- mget_loop (k :: r) [] ;; Ret (RArr (Some l))
  | _ => Ret err_args
  end.

(** The key/value pairs of MSET (memdb/strings.go:326-331); [None] for an odd number. *)
Fixpoint pairs_of (l : list val) : option (list (bytes * val)) :=
  match l with
  | [] => Some []
  | k :: v :: r => match pairs_of r with Some p => Some ((str k, v) :: p) | None => None end
  | [_] => None
  end.

(** The assignment loop (memdb/strings.go:336-339). *)
Fixpoint mset_loop (l : list (bytes * val)) : prog unit :=
  match l with
  | [] => Ret tt
  | (k, v) :: r => delete_expire k ;;; dict_set k (VStr v) ;;; mset_loop r
  end.

(** mSetString (memdb/strings.go:321-342). *)
Definition mset_string (cmd : command) : prog rdata :=
  match cmd with
  | _ :: k :: v :: r =>
      match pairs_of (k :: v :: r) with
      | None => Ret err_args
      | Some ps => with_mlock MW (map fst ps) (mset_loop ps ;;; Ret ok)
      end
  | _ => Ret err_args
  end.

(** setExString (memdb/strings.go:344-367). *)
Definition setex_string (cmd : command) : prog rdata :=
  match cmd with
  | [_; k; n; v] =>
      let key := str k in
      delete_expired_key key ;;;
      match atoi (str n) with
      | None => Ret err_int
      | Some sec =>
          with_lock MW key (
            dict_set key (VStr v) ;;;
            now <- now_unix ;;
            set_expire key (wrap64 (now + sec)) ;;;
            Ret ok)
      end
  | _ => Ret err_args
  end.

(** setNxString (memdb/strings.go:369-390): the existence check is made before locking. *)
Definition setnx_string (cmd : command) : prog rdata :=
  match cmd with
  | [_; k; v] =>
      let key := str k in
      delete_expired_key key ;;;
      x <- dict_get key ;;
      match x with
      | Some _ => Ret (RInt 0)
      | None => with_lock MW key (dict_set key (VStr v) ;;; Ret (RInt 1))
      end
  | _ => Ret err_args
  end.

(** strLenString (memdb/strings.go:392-413). *)
Definition strlen_string (cmd : command) : prog rdata :=
  match cmd with
  | [_; k] =>
      let key := str k in
      delete_expired_key key ;;;
      with_lock MR key (
        v <- dict_get key ;;
        match v with
        | Some (VStr s) => Ret (RInt (zlen (str s)))
        | Some _ => Ret (RErr (B "ERR the value stored at key is not a string"))
        | None => Ret (RInt 0)
        end)
  | _ => Ret err_args
  end.

(** Common body of incrString, incrByString, decrString and decrByString
    (memdb/strings.go:424-445, 462-483, 495-516, 533-554): [f] is the arithmetic on int64,
    [bad] the reply for a value that is not an integer. *)
Definition counter_body (key : bytes) (f : Z -> Z) (bad : rdata) : prog rdata :=
  with_lock MW key (
    v <- dict_get key ;;
    match v with
    | None => Ret (RInt 0)
    | Some (VStr s) =>
        match atoi (str s) with
        | None => Ret bad
        | Some n =>
            let n' := wrap64 (f n) in
            dict_set key (VStr (Some (fmt_int n'))) ;;; Ret (RInt n')
        end
    | Some _ => Ret err_not_string
    end).

(** incrString (memdb/strings.go:415-446). *)
Definition incr_string (cmd : command) : prog rdata :=
  match cmd with
  | [_; k] =>
      delete_expired_key (str k) ;;; counter_body (str k) (fun n => n + 1) err_int
  | _ => Ret err_args
  end.

(** incrByString (memdb/strings.go:448-484). *)
Definition incrby_string (cmd : command) : prog rdata :=
  match cmd with
  | [_; k; d] =>
      delete_expired_key (str k) ;;;
      match atoi (str d) with
      | None => Ret err_int
      | Some i => counter_body (str k) (fun n => n + i) err_int
      end
  | _ => Ret err_args
  end.

(** decrString (memdb/strings.go:486-517). *)
Definition decr_string (cmd : command) : prog rdata :=
  match cmd with
  | [_; k] =>
      delete_expired_key (str k) ;;; counter_body (str k) (fun n => n - 1) err_int
  | _ => Ret err_args
  end.

(** decrByString (memdb/strings.go:519-555). *)
Definition decrby_string (cmd : command) : prog rdata :=
  match cmd with
  | [_; k; d] =>
      delete_expired_key (str k) ;;;
      match atoi (str d) with
      | None => Ret err_int
      | Some i => counter_body (str k) (fun n => n - i) (RErr (B "(error) value is not an integer"))
      end
  | _ => Ret err_args
  end.

(** incrByFloatString (memdb/strings.go:557-596). *)
Definition incrbyfloat_string (cmd : command) : prog rdata :=
  match cmd with
  | [_; k; d] =>
      let key := str k in
      delete_expired_key key ;;;
      match parse_float (str d) with
      | None => Ret err_float
      | Some i =>
          with_lock MW key (
            v <- dict_get key ;;
            match v with
            | None =>
                let f := Some (fmt_float i) in
                dict_set key (VStr f) ;;; Ret (RBulk f)
            | Some (VStr s) =>
                match parse_float (str s) with
                | None => Ret err_float
                | Some x =>
                    let f := Some (fmt_float (add_float x i)) in
                    dict_set key (VStr f) ;;; Ret (RBulk f)
                end
            | Some _ => Ret err_not_string
            end)
      end
  | _ => Ret err_args
  end.

(** appendString (memdb/strings.go:598-625). *)
Definition append_string (cmd : command) : prog rdata :=
  match cmd with
  | [_; k; a] =>
      let key := str k in
      delete_expired_key key ;;;
      with_lock MW key (
        v <- dict_get key ;;
        match v with
        | None => dict_set key (VStr a) ;;; Ret (RInt (zlen (str a)))
        | Some (VStr s) =>
            let n := go_append s (str a) in
            dict_set key (VStr n) ;;; Ret (RInt (zlen (str n)))
        | Some _ => Ret err_not_string
        end)
  | _ => Ret err_args
  end.

End WithParams.
