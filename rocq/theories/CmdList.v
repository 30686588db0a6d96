(** Model of memdb/list.go, over lists of values.  The doubly linked list of
    memdb/list_struct.go itself is modelled, pointer by pointer, in DList.v, where
    each of its operations is proved to act on the represented sequence as the functions of this file do.

    The successive in-place updates a command makes to one list, all made under the
    key's write lock, are one [DMut] node carrying the final contents. *)
From Verif Require Export Prog.

(** bytes.Equal: nil and empty are equal. *)
Definition veq (a b : val) : bool := beq (str a) (str b).

(** ** memdb/list_struct.go, on sequences *)

(** List.Index (list_struct.go:28-49). *)
Inductive lidx := LI_none | LI_at (n : nat) | LI_crash.
Definition list_index (l : list val) (index : Z) : lidx :=
  if index <? 0 then
    let ni := wrap64 (- index) in
    if zlen l <? ni then LI_none
    else if ni <? 0 then LI_crash         (* index = MinInt64: walks past the head, nil dereference *)
    else LI_at (Z.to_nat (zlen l - ni))
  else if zlen l <=? index then LI_none
  else LI_at (Z.to_nat index).

(** List.Pos (list_struct.go:51-60): first matching index, or -1. *)
Fixpoint list_pos (l : list val) (v : val) (pos : Z) : Z :=
  match l with
  | [] => -1
  | x :: r => if veq x v then pos else list_pos r v (pos + 1)
  end.

(** List.InsertBefore (list_struct.go:62-74): at every occurrence of the pivot. *)
Definition list_insert_before (l : list val) (v pivot : val) : bool * list val :=
  (existsb (fun x => veq x pivot) l,
   concat (map (fun x => if veq x pivot then [v; x] else [x]) l)).

(** List.InsertAfter (list_struct.go:76-88): [None] if the loop never ends, which is when
    the inserted node is itself visited and matches. *)
Definition list_insert_after (l : list val) (v pivot : val) : option (bool * list val) :=
  if existsb (fun x => veq x pivot) l && veq v pivot then None
  else Some (existsb (fun x => veq x pivot) l,
             concat (map (fun x => if veq x pivot then [x; v] else [x]) l)).

(** List.Range (list_struct.go:128-157). *)
Definition list_range (l : list val) (start0 end0 : Z) : list val :=
  let len := zlen l in
  let start := if start0 <? 0 then len + start0 else start0 in
  let end1 := if end0 <? 0 then len + end0 else end0 in
  if (end1 <? start) || (len <=? start) || (end1 <? 0) then []
  else
    let end2 := if len <=? end1 then len - 1 else end1 in
    let start2 := if start <? 0 then 0 else start in
    take (Z.to_nat (end2 - start2 + 1)) (drop (Z.to_nat start2) l).

(** One direction of List.Remove (list_struct.go:174-183): at most [n] removals. *)
Fixpoint remove_upto (l : list val) (v : val) (n : Z) : Z * list val :=
  match l with
  | [] => (0, [])
  | x :: r =>
      if n <=? 0 then (0, l)
      else if veq x v then let '(k, r') := remove_upto r v (n - 1) in (k + 1, r')
           else let '(k, r') := remove_upto r v n in (k, x :: r')
  end.

(** List.Remove (list_struct.go:164-197). *)
Definition list_rem (l : list val) (v : val) (count0 : Z) : Z * list val :=
  if zlen l =? 0 then (0, l)
  else
    let count := if count0 =? 0 then zlen l else count0 in
    if 0 <? count then remove_upto l v count
    else let '(k, r) := remove_upto (rev l) v (wrap64 (- count)) in (k, rev r).

(** List.Trim (list_struct.go:208-247).  [None] is the nil-pointer panic at line 243: on an empty list with a
    negative start and a non-negative end, no early return applies and the loop finds no node. *)
Definition list_trim (l : list val) (start0 end0 : Z) : option (list val) :=
  if (zlen l =? 0) && (start0 <? 0) && (0 <=? end0) then None else Some (list_range l start0 end0).

Section WithParams.
Context {P : Setup}.

(** ** memdb/list.go *)

(** The common shape of the read-only list commands. *)
Definition list_read (key : bytes) (gone : rdata) (f : list val -> prog rdata) : prog rdata :=
  with_lock MR key (
    v <- dict_get key ;;
    match v with
    | None => Ret gone
    | Some (VList l) => f l
    | Some _ => Ret err_wrong_kind
    end).

(** The common shape of the list commands that update an existing list. *)
Definition list_update (key : bytes) (gone : rdata) (f : list val -> prog rdata) : prog rdata :=
  with_lock MW key (
    v <- dict_get key ;;
    match v with
    | None => Ret gone
    | Some (VList l) => f l
    | Some _ => Ret err_wrong_kind
    end).

(** The deferred clean-up: delete the key if its list is empty (list.go:238-243, 614-619, 704-709, 751-756). *)
Definition drop_if_empty (key : bytes) (l : list val) : prog unit :=
  if zlen l =? 0 then dict_del key ;;; delete_expire key ;;; Ret tt else Ret tt.

(** lIndexList (list.go:11-50). *)
Definition lindex_list (cmd : command) : prog rdata :=
  match cmd with
  | [_; k; i] =>
      let key := str k in
      e <- delete_expired_key key ;;
      if e then Ret rnil
      else match atoi (str i) with
      | None => Ret err_int
      | Some index =>
          list_read key rnil (fun l =>
            match list_index l index with
            | LI_none => Ret rnil
            | LI_crash => Crash
            | LI_at n => match l !! n with Some v => Ret (RBulk v) | None => Crash end
            end)
      end
  | _ => Ret err_args
  end.

(** lInsertList (list.go:52-104). *)
Definition linsert_list (cmd : command) : prog rdata :=
  match cmd with
  | [_; k; w; pivot; v] =>
      let key := str k in
      e <- delete_expired_key key ;;
      if e then Ret (RInt 0)
      else
        let flag := to_lower (str w) in
        if negb (beq flag (B "before")) && negb (beq flag (B "after")) then Ret err_syntax
        else list_update key (RInt 0) (fun l =>
          match (if beq flag (B "before") then Some (list_insert_before l v pivot)
                 else list_insert_after l v pivot) with
          | None => Hang
          | Some (false, _) => Ret (RInt (-1))
          | Some (true, l') => obj_put key (VList l') ;;; Ret (RInt (zlen l'))
          end)
  | _ => Ret err_args
  end.

(** lLenList (list.go:106-133). *)
Definition llen_list (cmd : command) : prog rdata :=
  match cmd with
  | [_; k] =>
      let key := str k in
      e <- delete_expired_key key ;;
      if e then Ret (RInt 0)
      else list_read key (RInt 0) (fun l => Ret (RInt (zlen l)))
  | _ => Ret err_args
  end.

(** List.LPop / RPop (list_struct.go:90-112). *)
Definition pop_left (l : list val) : option (val * list val) :=
  match l with [] => None | x :: r => Some (x, r) end.
Definition pop_right (l : list val) : option (val * list val) :=
  match rev l with [] => None | x :: r => Some (x, rev r) end.
(** List.LPush / RPush (list_struct.go:114-126). *)
Definition push_left (v : val) (l : list val) : list val := v :: l.
Definition push_right (v : val) (l : list val) : list val := l ++ [v].

(** lMoveList (list.go:135-201).  The two list objects are the same object when the two
    keys are equal, so after mutating one the other is read again. *)
Definition lmove_list (cmd : command) : prog rdata :=
  match cmd with
  | [_; a; b; wa; wb] =>
      let src := str a in
      e <- delete_expired_key src ;;
      if e then Ret rnil
      else
        let des := str b in
        delete_expired_key des ;;;
        let sd := to_lower (str wa) in
        let dd := to_lower (str wb) in
        if (negb (beq sd (B "left")) && negb (beq sd (B "right")))
           || (negb (beq dd (B "left")) && negb (beq dd (B "right"))) then Ret err_syntax
        else with_mlock MW [src; des] (
          sv <- dict_get src ;;
          match sv with
          | None => Ret rnil
          | Some srcVal =>
              dv <- dict_get des ;;
              desVal <- match dv with
                        | None => dict_set des (VList []) ;;; Ret (VList [])
                        | Some d => Ret d
                        end ;;
              match srcVal with
              | VList sl =>
                  r <- match desVal with
                       | VList _ =>
                           match (if beq sd (B "left") then pop_left sl else pop_right sl) with
                           | None => Crash                           (* srcPop is nil: srcPop.Val *)
                           | Some (x, sl') =>
                               obj_put src (VList sl') ;;;
                               d <- dict_get des ;;
                               match d with
                               | Some (VList dl) =>
                                   obj_put des (VList (if beq dd (B "left") then push_left x dl
                                                       else push_right x dl)) ;;;
                                   Ret (RBulk x)
                               | _ => Crash                          (* unreachable: des holds a list *)
                               end
                           end
                       | _ => Ret err_wrong_kind
                       end ;;
                  s <- dict_get src ;;                               (* deferred: srcList.Len == 0 *)
                  match s with
                  | Some (VList l) => drop_if_empty src l
                  | _ => Ret tt                                      (* unreachable *)
                  end ;;;
                  Ret r
              | _ => Ret err_wrong_kind
              end
          end)
  | _ => Ret err_args
  end.

(** lPopList and rPopList (list.go:203-268, 716-781) after argument parsing; [left] selects the
    end, [count] is [None] if it was not a positive integer. *)
Definition pop_run (left : bool) (k : val) (count : option Z) : prog rdata :=
    let key := str k in
    e <- delete_expired_key key ;;
    if e then Ret rnil
    else match count with
    | None => Ret (RErr (B "value is out of range, must be positive"))
    | Some c =>
        list_update key rnil (fun l =>
          if c =? 1 then
            match (if left then pop_left l else pop_right l) with
            | None => drop_if_empty key l ;;; Ret rnil
            | Some (x, l') => obj_put key (VList l') ;;; drop_if_empty key l' ;;; Ret (RBulk x)
            end
          else
            let n := Z.to_nat (if zlen l <? c then zlen l else c) in
            let '(out, l') := if left then (take n l, drop n l)
                              else (take n (rev l), rev (drop n (rev l))) in
            obj_put key (VList l') ;;; drop_if_empty key l' ;;;
            Ret (RArr (Some (map RBulk out))))
    end.
Definition pop_list (left : bool) (cmd : command) : prog rdata :=
  match cmd with
  | [] | [_] => Ret err_args
  | [_; k; n] => pop_run left k (match atoi (str n) with
                        | Some c => if c <=? 0 then None else Some c
                        | None => None
                        end)
  | _ :: k :: _ => pop_run left k (Some 1)
  end.
Definition lpop_list : command -> prog rdata := pop_list true.
Definition rpop_list : command -> prog rdata := pop_list false.

(** Options of lPosList (list.go:283-321). *)
Record lposopts := mkLpos { p_rank : option Z; p_count : option Z; p_maxlen : option Z }.
Definition err_rank0 : rdata := RErr (B "RANK can't be zero: use 1 to start from the first match, 2 from the second ... or use negative to start from the end of the list").
Fixpoint lpos_opts (args : list val) (o : lposopts) : lposopts + rdata :=
  match args with
  | [] => inl o
  | [_] => inl o                       (* unreachable: the number of arguments is even *)
  | a :: n :: r =>
      let w := to_lower (str a) in
      if beq w (B "rank") then
        match atoi (str n) with
        | None => inr err_int
        | Some v => if v =? 0 then inr err_rank0
                    else lpos_opts r (mkLpos (Some v) (p_count o) (p_maxlen o))
        end
      else if beq w (B "count") then
        match atoi (str n) with
        | None => inr err_int
        | Some v => if v <? 0 then inr (RErr (B "COUNT can't be negative"))
                    else lpos_opts r (mkLpos (p_rank o) (Some v) (p_maxlen o))
        end
      else if beq w (B "maxlen") then
        match atoi (str n) with
        | None => inr err_int
        | Some v => if v <? 0 then inr (RErr (B "MAXLEN can't be negative"))
                    else lpos_opts r (mkLpos (p_rank o) (p_count o) (Some v))
        end
      else inr (RErr (B "Unsupported option " ++ str a))
  end.

(** The RANK loops (list.go:361-397).  [nodes] are the nodes still to visit, [pos] the index of the last visited
    node, [d] = 1 forwards, -1 backwards.  Answer: [None] if the loop reached the sentinel,
    else the index of [cur], with the remaining rank and maxlen. *)
Fixpoint rank_walk (el : val) (nodes : list val) (pos d rank : Z) (ml : option Z)
  : option (Z * Z * option Z) :=
  match nodes with
  | [] => None
  | x :: r =>
      let pos := pos + d in
      let rank := if veq el x then rank - d else rank in
      match ml with
      | Some m =>
          if m - 1 =? 0 then Some (pos, rank, Some (m - 1))
          else if rank =? 0 then Some (pos, rank, Some (m - 1))
          else rank_walk el r pos d rank (Some (m - 1))
      | None =>
          if rank =? 0 then Some (pos, rank, None)
          else rank_walk el r pos d rank None
      end
  end.

(** The COUNT loops (list.go:411-446). *)
Fixpoint count_walk (el : val) (nodes : list val) (pos d cnt : Z) (ml : option Z) : list rdata :=
  match nodes with
  | [] => []
  | x :: r =>
      let hit := veq el x in
      let cnt' := if hit then cnt - 1 else cnt in
      let here := if hit then [RInt pos] else [] in
      if hit && (cnt' =? 0) then here
      else match ml with
           | Some m => if m <=? 0 then here
                       else here ++ count_walk el r (pos + d) d cnt' (Some (m - 1))
           | None => here ++ count_walk el r (pos + d) d cnt' None
           end
  end.

(** The loop without COUNT (list.go:449-461). *)
Fixpoint first_walk (el : val) (nodes : list val) (pos : Z) (ml : option Z) : rdata :=
  match nodes with
  | [] => rnil
  | x :: r =>
      if veq el x then RInt pos
      else match ml with
           | Some m => if m <=? 0 then rnil else first_walk el r (pos + 1) (Some (m - 1))
           | None => first_walk el r (pos + 1) None
           end
  end.

(** The search part of lPosList (list.go:338-467). *)
Definition lpos_run (l : list val) (el : val) (o : lposopts) : rdata :=
  match p_rank o, p_count o, p_maxlen o with
  | None, None, None =>
      let pos := list_pos l el 0 in if pos =? -1 then rnil else RInt pos
  | _, _, _ =>
      let cntv := match p_count o with Some c => Some (if c =? 0 then zlen l else c) | None => None end in
      let mlv := match p_maxlen o with Some m => Some (if m =? 0 then zlen l else m) | None => None end in
      let '(start, reverse) :=
        match p_rank o with
        | Some r =>
            if 0 <? r then (rank_walk el l (-1) 1 r mlv, false)
            else (rank_walk el (rev l) (zlen l) (-1) r mlv, true)
        | None =>
            (match l with
             | [] => None                                        (* cur = l.Head.Next is l.Tail *)
             | _ => Some (0, 0, match mlv with Some m => Some (m - 1) | None => None end)
             end, false)
        end in
      match start with
      | None => rnil
      | Some (pos, rank, ml) =>
          if negb (rank =? 0) then rnil
          else
            match cntv with
            | Some c =>
                let nodes := if reverse then rev (take (S (Z.to_nat pos)) l) else drop (Z.to_nat pos) l in
                match count_walk el nodes pos (if reverse then -1 else 1) c ml with
                | [] => rnil
                | res => RArr (Some res)
                end
            | None => first_walk el (drop (Z.to_nat pos) l) pos ml
            end
      end
  end.

(** lPosList (list.go:270-468). *)
Definition lpos_list (cmd : command) : prog rdata :=
  match cmd with
  | _ :: k :: el :: args =>
      if Nat.even (length cmd) then Ret err_args
      else
        let key := str k in
        e <- delete_expired_key key ;;
        if e then Ret rnil
        else match lpos_opts args (mkLpos None None None) with
        | inr err => Ret err
        | inl o => list_read key rnil (fun l => Ret (lpos_run l el o))
        end
  | _ => Ret err_args
  end.

(** lPushList / rPushList (list.go:470-500, 783-813). *)
Definition push_all (left : bool) (l : list val) (els : list val) : list val :=
  if left then rev els ++ l else l ++ els.
Definition push_list (left : bool) (cmd : command) : prog rdata :=
  match cmd with
  | _ :: k :: x :: xs =>
      let key := str k in
      delete_expired_key key ;;;
      with_lock MW key (
        v <- dict_get key ;;
        let go (l : list val) : prog rdata :=
          let l' := push_all left l (x :: xs) in
          obj_put key (VList l') ;;; Ret (RInt (zlen l')) in
        match v with
        | None => dict_set key (VList []) ;;; go []
        | Some (VList l) => go l
        | Some _ => Ret err_wrong_kind
        end)
  | _ => Ret err_args
  end.
Definition lpush_list : command -> prog rdata := push_list true.
Definition rpush_list : command -> prog rdata := push_list false.

(** lPushXList / rPushXList (list.go:502-533, 815-846). *)
Definition pushx_list (left : bool) (cmd : command) : prog rdata :=
  match cmd with
  | _ :: k :: x :: xs =>
      let key := str k in
      e <- delete_expired_key key ;;
      if e then Ret (RInt 0)
      else list_update key (RInt 0) (fun l =>
        let l' := push_all left l (x :: xs) in
        obj_put key (VList l') ;;; Ret (RInt (zlen l')))
  | _ => Ret err_args
  end.
Definition lpushx_list : command -> prog rdata := pushx_list true.
Definition rpushx_list : command -> prog rdata := pushx_list false.

(** lRangeList (list.go:535-579). *)
Definition lrange_list (cmd : command) : prog rdata :=
  match cmd with
  | [_; k; a; b] =>
      let key := str k in
      e <- delete_expired_key key ;;
      if e then Ret (RArr None)
      else match atoi (str a), atoi (str b) with
      | Some start, Some end_ =>
          list_read key (RArr None) (fun l => Ret (RArr (Some (map RBulk (list_range l start end_)))))
      | _, _ => Ret err_int
      end
  | _ => Ret err_args
  end.

(** lRemList (list.go:581-624). *)
Definition lrem_list (cmd : command) : prog rdata :=
  match cmd with
  | [_; k; n; el] =>
      let key := str k in
      e <- delete_expired_key key ;;
      if e then Ret (RInt 0)
      else match atoi (str n) with
      | None => Ret err_int
      | Some count =>
          list_update key (RInt 0) (fun l =>
            let '(c, l') := list_rem l el count in
            obj_put key (VList l') ;;; drop_if_empty key l' ;;; Ret (RInt c))
      end
  | _ => Ret err_args
  end.

(** lSetList (list.go:626-666). *)
Definition lset_list (cmd : command) : prog rdata :=
  match cmd with
  | [_; k; i; v] =>
      let key := str k in
      e <- delete_expired_key key ;;
      if e then Ret err_no_key
      else match atoi (str i) with
      | None => Ret err_int
      | Some index =>
          list_update key err_no_key (fun l =>
            match list_index l index with
            | LI_none => Ret (RErr (B "index out of range"))
            | LI_crash => Crash
            | LI_at n => obj_put key (VList (<[n := v]> l)) ;;; Ret ok
            end)
      end
  | _ => Ret err_args
  end.

(** lTrimList (list.go:668-714). *)
Definition ltrim_list (cmd : command) : prog rdata :=
  match cmd with
  | [_; k; a; b] =>
      let key := str k in
      e <- delete_expired_key key ;;
      if e then Ret err_no_key
      else match atoi (str a), atoi (str b) with
      | Some start, Some end_ =>
          list_update key err_no_key (fun l =>
            match list_trim l start end_ with
            | None => Crash
            | Some l' => obj_put key (VList l') ;;; drop_if_empty key l' ;;; Ret ok
            end)
      | _, _ => Ret err_int
      end
  | _ => Ret err_args
  end.

End WithParams.
