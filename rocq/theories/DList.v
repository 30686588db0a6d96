(** Model of memdb/list_struct.go, pointer by pointer.
    Pointers are numbers ([None] is nil), nodes live in a heap that only grows (the garbage collector is not modelled).
    A [for] loop takes a bound on its number of iterations, [fuel]; the theorems hold for every large enough bound. *)
From Verif Require Export CmdList.

(** ListNode (list_struct.go:13-17). *)
Record node := mkNode { nprev : option nat; nnext : option nat; nval : val }.
(** The heap and one List (list_struct.go:7-11); the node numbers from [nfree] on are unused. *)
Record lst := mkLst { cells : gmap nat node; nfree : nat; hd : nat; tl : nat; ln : Z }.

(** How a method ends: it returns, dereferences nil, or has not finished after [fuel] iterations. *)
Inductive mres A := Ok (a : A) (s : lst) | NilDeref | NoFuel.
Arguments Ok {A}. Arguments NilDeref {A}. Arguments NoFuel {A}.
Definition M A := lst -> mres A.
Definition mret {A} (a : A) : M A := fun s => Ok a s.
Definition mbind {A C} (m : M A) (k : A -> M C) : M C :=
  fun s => match m s with Ok a s' => k a s' | NilDeref => NilDeref | NoFuel => NoFuel end.
Notation "x <== m ;; k" := (mbind m (fun x => k)) (at level 100, m at next level, right associativity).
Notation "m ;;== k" := (mbind m (fun _ => k)) (at level 100, right associativity).

(** ** Field accesses *)
Definition deref (p : option nat) : M node :=
  fun s => match p with
           | Some a => match cells s !! a with Some n => Ok n s | None => NilDeref end
           | None => NilDeref
           end.
Definition get_next (p : option nat) : M (option nat) := n <== deref p ;; mret (nnext n).
Definition get_prev (p : option nat) : M (option nat) := n <== deref p ;; mret (nprev n).
Definition get_val (p : option nat) : M val := n <== deref p ;; mret (nval n).
Definition store (p : option nat) (f : node -> node) : M unit :=
  fun s => match p with
           | Some a => match cells s !! a with
                       | Some n => Ok tt (mkLst (<[a := f n]> (cells s)) (nfree s) (hd s) (tl s) (ln s))
                       | None => NilDeref
                       end
           | None => NilDeref
           end.
Definition set_next (p q : option nat) : M unit := store p (fun n => mkNode (nprev n) q (nval n)).
Definition set_prev (p q : option nat) : M unit := store p (fun n => mkNode q (nnext n) (nval n)).
Definition set_val (p : option nat) (v : val) : M unit := store p (fun n => mkNode (nprev n) (nnext n) v).
(** [&ListNode{Prev: p, Next: q, Val: v}] *)
Definition alloc (p q : option nat) (v : val) : M (option nat) :=
  fun s => Ok (Some (nfree s)) (mkLst (<[nfree s := mkNode p q v]> (cells s)) (S (nfree s)) (hd s) (tl s) (ln s)).
Definition l_head : M (option nat) := fun s => Ok (Some (hd s)) s.
Definition l_tail : M (option nat) := fun s => Ok (Some (tl s)) s.
Definition l_len : M Z := fun s => Ok (ln s) s.
Definition set_len (n : Z) : M unit := fun s => Ok tt (mkLst (cells s) (nfree s) (hd s) (tl s) n).
(** Comparison of pointers. *)
Definition ptr_eqb (p q : option nat) : bool := bool_decide (p = q).

(** NewList (list_struct.go:19-26), in a heap with [h] cells in use below [n]. *)
Definition new_list (h : gmap nat node) (n : nat) : lst :=
  mkLst (<[S n := mkNode (Some n) None None]> (<[n := mkNode None (Some (S n)) None]> h)) (S (S n)) n (S n) 0.

(** ** Methods *)

(** [for i := 0; i < n; i++ { cur = cur.Prev }] and the same with Next. *)
Fixpoint step_loop (fuel : nat) (back : bool) (i n : Z) (cur : option nat) : M (option nat) :=
  if i <? n then
    match fuel with
    | O => fun _ => NoFuel
    | S f => c <== (if back then get_prev cur else get_next cur) ;; step_loop f back (i + 1) n c
    end
  else mret cur.
(** Index (list_struct.go:28-49). *)
Definition m_index (fuel : nat) (index : Z) : M (option nat) :=
  len <== l_len ;;
  if index <? 0 then
    if len <? wrap64 (- index) then mret None
    else t <== l_tail ;; c <== get_prev t ;; step_loop fuel true 0 (wrap64 (wrap64 (- index) - 1)) c
  else
    if len <=? index then mret None
    else h <== l_head ;; c <== get_next h ;; step_loop fuel false 0 index c.

(** Pos (list_struct.go:51-60). *)
Fixpoint pos_loop (fuel : nat) (v : val) (pos : Z) (cur : option nat) : M Z :=
  t <== l_tail ;;
  if ptr_eqb cur t then mret (-1)
  else match fuel with
       | O => fun _ => NoFuel
       | S f =>
           x <== get_val cur ;;
           if veq x v then mret pos
           else c <== get_next cur ;; pos_loop f v (pos + 1) c
       end.
Definition m_pos (fuel : nat) (v : val) : M Z :=
  h <== l_head ;; c <== get_next h ;; pos_loop fuel v 0 c.

(** InsertBefore (list_struct.go:62-74). *)
Fixpoint before_loop (fuel : nat) (v pivot : val) (ok : bool) (cur : option nat) : M bool :=
  t <== l_tail ;;
  if ptr_eqb cur t then mret ok
  else match fuel with
       | O => fun _ => NoFuel
       | S f =>
           x <== get_val cur ;;
           ok <== (if veq x pivot then
                     p <== get_prev cur ;;
                     node <== alloc p cur v ;;
                     set_prev cur node ;;==
                     q <== get_prev node ;;
                     set_next q node ;;==
                     len <== l_len ;;
                     set_len (len + 1) ;;==
                     mret true
                   else mret ok) ;;
           c <== get_next cur ;; before_loop f v pivot ok c
       end.
Definition m_insert_before (fuel : nat) (v pivot : val) : M bool :=
  h <== l_head ;; c <== get_next h ;; before_loop fuel v pivot false c.

(** InsertAfter (list_struct.go:76-88). *)
Fixpoint after_loop (fuel : nat) (v pivot : val) (ok : bool) (cur : option nat) : M bool :=
  t <== l_tail ;;
  if ptr_eqb cur t then mret ok
  else match fuel with
       | O => fun _ => NoFuel
       | S f =>
           x <== get_val cur ;;
           ok <== (if veq x pivot then
                     q <== get_next cur ;;
                     node <== alloc cur q v ;;
                     set_next cur node ;;==
                     p <== get_next node ;;
                     set_prev p node ;;==
                     len <== l_len ;;
                     set_len (len + 1) ;;==
                     mret true
                   else mret ok) ;;
           c <== get_next cur ;; after_loop f v pivot ok c
       end.
Definition m_insert_after (fuel : nat) (v pivot : val) : M bool :=
  h <== l_head ;; c <== get_next h ;; after_loop fuel v pivot false c.

(** LPop, RPop (list_struct.go:90-112): the node removed, or nil. *)
Definition m_lpop : M (option nat) :=
  len <== l_len ;;
  if len =? 0 then mret None
  else
    h <== l_head ;;
    node <== get_next h ;;
    q <== get_next node ;;
    set_next h q ;;==
    q <== get_next node ;;
    set_prev q h ;;==
    len <== l_len ;;
    set_len (len - 1) ;;==
    mret node.
Definition m_rpop : M (option nat) :=
  len <== l_len ;;
  if len =? 0 then mret None
  else
    t <== l_tail ;;
    node <== get_prev t ;;
    p <== get_prev node ;;
    set_prev t p ;;==
    p <== get_prev node ;;
    set_next p t ;;==
    len <== l_len ;;
    set_len (len - 1) ;;==
    mret node.

(** LPush, RPush (list_struct.go:114-126). *)
Definition m_lpush (v : val) : M unit :=
  h <== l_head ;;
  q <== get_next h ;;
  node <== alloc h q v ;;
  set_next h node ;;==
  q <== get_next node ;;
  set_prev q node ;;==
  len <== l_len ;;
  set_len (len + 1).
Definition m_rpush (v : val) : M unit :=
  t <== l_tail ;;
  p <== get_prev t ;;
  node <== alloc p t v ;;
  set_prev t node ;;==
  p <== get_prev node ;;
  set_next p node ;;==
  len <== l_len ;;
  set_len (len + 1).

(** [for i := 0; i <= end; i++ {...}] of Range (list_struct.go:150-155). *)
Fixpoint range_loop (fuel : nat) (i start end_ : Z) (cur : option nat) (res : list val) : M (list val) :=
  if i <=? end_ then
    match fuel with
    | O => fun _ => NoFuel
    | S f =>
        c <== get_next cur ;;
        res <== (if start <=? i then x <== get_val c ;; mret (res ++ [x]) else mret res) ;;
        range_loop f (i + 1) start end_ c res
    end
  else mret res.
(** Range (list_struct.go:128-157). *)
Definition m_range (fuel : nat) (start0 end0 : Z) : M (list val) :=
  len <== l_len ;;
  let start := if start0 <? 0 then len + start0 else start0 in
  let end1 := if end0 <? 0 then len + end0 else end0 in
  if (end1 <? start) || (len <=? start) || (end1 <? 0) then mret []
  else
    let end2 := if len <=? end1 then len - 1 else end1 in
    let start2 := if start <? 0 then 0 else start in
    h <== l_head ;;
    range_loop fuel 0 start2 end2 h [].

(** The two loops of Remove (list_struct.go:175-193). *)
Fixpoint remove_loop (fuel : nat) (back : bool) (v : val) (count removed : Z) (cur : option nat) : M Z :=
  stop <== (if back then l_head else l_tail) ;;
  if negb (ptr_eqb cur stop) && (removed <? count) then
    match fuel with
    | O => fun _ => NoFuel
    | S f =>
        x <== get_val cur ;;
        removed <== (if veq x v then
                       q <== get_next cur ;;
                       p <== get_prev cur ;;
                       set_prev q p ;;==
                       p <== get_prev cur ;;
                       q <== get_next cur ;;
                       set_next p q ;;==
                       len <== l_len ;;
                       set_len (len - 1) ;;==
                       mret (removed + 1)
                     else mret removed) ;;
        c <== (if back then get_prev cur else get_next cur) ;;
        remove_loop f back v count removed c
    end
  else mret removed.
(** Remove (list_struct.go:164-197). *)
Definition m_remove (fuel : nat) (v : val) (count0 : Z) : M Z :=
  len <== l_len ;;
  if len =? 0 then mret 0
  else
    let count := if count0 =? 0 then len else count0 in
    if 0 <? count then h <== l_head ;; c <== get_next h ;; remove_loop fuel false v count 0 c
    else t <== l_tail ;; c <== get_prev t ;; remove_loop fuel true v (wrap64 (- count)) 0 c.

(** Set (list_struct.go:199-206). *)
Definition m_set (fuel : nat) (v : val) (index : Z) : M bool :=
  n <== m_index fuel index ;;
  match n with
  | None => mret false
  | Some _ => set_val n v ;;== mret true
  end.

(** Clear (list_struct.go:249-257). *)
Definition m_clear : M unit :=
  len <== l_len ;;
  if len =? 0 then mret tt
  else
    h <== l_head ;; t <== l_tail ;;
    set_next h t ;;== set_prev t h ;;== set_len 0.

(** The loop of Trim (list_struct.go:230-240). *)
Fixpoint trim_loop (fuel : nat) (pos start end_ : Z) (sn cur : option nat) : M (option nat * option nat) :=
  t <== l_tail ;;
  if ptr_eqb cur t then mret (sn, None)
  else match fuel with
       | O => fun _ => NoFuel
       | S f =>
           let sn := if pos =? start then cur else sn in
           if pos =? end_ then mret (sn, cur)
           else c <== get_next cur ;; trim_loop f (pos + 1) start end_ sn c
       end.
(** Trim (list_struct.go:208-247). *)
Definition m_trim (fuel : nat) (start0 end0 : Z) : M unit :=
  len <== l_len ;;
  let start := if start0 <? 0 then len + start0 else start0 in
  let end1 := if end0 <? 0 then len + end0 else end0 in
  if (end1 <? start) || (len <=? start) || (end1 <? 0) then m_clear
  else
    let end2 := if len <=? end1 then len - 1 else end1 in
    let start2 := if start <? 0 then 0 else start in
    h <== l_head ;; t <== l_tail ;;
    c <== get_next h ;;
    se <== trim_loop fuel 0 start2 end2 None c ;;
    set_next h se.1 ;;==
    set_prev se.1 h ;;==
    set_prev t se.2 ;;==
    set_next se.2 t ;;==
    set_len (end2 - start2 + 1).
