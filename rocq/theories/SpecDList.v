(** What it means for the pointers to represent a sequence; the operations on sequences. *)
From Verif Require Export DList.

(** Fields of the node with number [a]. *)
Definition nxt (s : lst) (a : nat) : option nat := match cells s !! a with Some n => nnext n | None => None end.
Definition prv (s : lst) (a : nat) : option nat := match cells s !! a with Some n => nprev n | None => None end.
Definition vl (s : lst) (a : nat) : val := match cells s !! a with Some n => nval n | None => None end.

(** [dseg s a xs b]: the nodes [xs] (number and value) lie, in this order, between the nodes [a] and [b]; wherever a Next
    pointer leads, the Prev pointer leads back. *)
Fixpoint dseg (s : lst) (a : nat) (xs : list (nat * val)) (b : nat) : Prop :=
  match xs with
  | [] => nxt s a = Some b /\ prv s b = Some a
  | (x, v) :: r => nxt s a = Some x /\ prv s x = Some a /\ vl s x = v /\ dseg s x r b
  end.
(** All the nodes of a list with its two dummies. *)
Definition own (s : lst) (xs : list (nat * val)) : list nat := hd s :: map fst xs ++ [tl s].
(** The list is well formed and its nodes are [xs]. *)
Record rep (s : lst) (xs : list (nat * val)) : Prop := mkRep {
  rep_seg : dseg s (hd s) xs (tl s);
  rep_first : prv s (hd s) = None;
  rep_last : nxt s (tl s) = None;
  rep_nodup : NoDup (own s xs);
  rep_in : forall a, a ∈ own s xs -> is_Some (cells s !! a) /\ (a < nfree s)%nat;
  rep_fresh : forall a, (nfree s <= a)%nat -> cells s !! a = None;
  rep_len : ln s = zlen xs }.
(** It represents the sequence [vs]. *)
Definition represents (s : lst) (vs : list val) : Prop := exists xs, rep s xs /\ vs = map snd xs.
(** Nothing outside the list is touched; new nodes are fresh. *)
Definition evolves (s : lst) (xs : list (nat * val)) (s' : lst) (xs' : list (nat * val)) : Prop :=
  hd s' = hd s /\ tl s' = tl s /\ (nfree s <= nfree s')%nat /\
  (forall a, a ∈ map fst xs' -> a ∈ map fst xs \/ (nfree s <= a)%nat) /\
  (forall a, (a < nfree s)%nat -> a ∉ own s xs -> cells s' !! a = cells s !! a).

(** ** Operations *)
Inductive lop :=
| OIndex (i : Z) | OPos (v : val) | OInsertBefore (v pivot : val) | OInsertAfter (v pivot : val)
| OLPop | ORPop | OLPush (v : val) | ORPush (v : val) | ORange (a b : Z) | ORemove (v : val) (n : Z)
| OSet (v : val) (i : Z) | OTrim (a b : Z) | OClear | OLen.
Inductive lres := LNothing | LNil | LVal (v : val) | LNum (n : Z) | LBool (b : bool) | LVals (l : list val).

(** The method; a returned node is represented by its value. *)
Definition node_val (p : option nat) : M lres :=
  match p with None => mret LNil | Some _ => v <== get_val p ;; mret (LVal v) end.
Definition call (fuel : nat) (o : lop) : M lres :=
  match o with
  | OIndex i => p <== m_index fuel i ;; node_val p
  | OPos v => n <== m_pos fuel v ;; mret (LNum n)
  | OInsertBefore v p => b <== m_insert_before fuel v p ;; mret (LBool b)
  | OInsertAfter v p => b <== m_insert_after fuel v p ;; mret (LBool b)
  | OLPop => p <== m_lpop ;; node_val p
  | ORPop => p <== m_rpop ;; node_val p
  | OLPush v => m_lpush v ;;== mret LNothing
  | ORPush v => m_rpush v ;;== mret LNothing
  | ORange a b => l <== m_range fuel a b ;; mret (LVals l)
  | ORemove v n => k <== m_remove fuel v n ;; mret (LNum k)
  | OSet v i => b <== m_set fuel v i ;; mret (LBool b)
  | OTrim a b => m_trim fuel a b ;;== mret LNothing
  | OClear => m_clear ;;== mret LNothing
  | OLen => n <== l_len ;; mret (LNum n)
  end.

(** The same on a sequence: it returns, crashes, or never returns.  [list_index] etc. are the functions on sequences
    used in the model of the list commands (CmdList.v). *)
Inductive sres := SDone (r : lres) (l : list val) | SCrash | SHang.
Definition seq_op (o : lop) (l : list val) : sres :=
  match o with
  | OIndex i => match list_index l i with
                | LI_none => SDone LNil l
                | LI_at n => match l !! n with Some v => SDone (LVal v) l | None => SCrash end
                | LI_crash => SCrash
                end
  | OPos v => SDone (LNum (list_pos l v 0)) l
  | OInsertBefore v p => let '(b, l') := list_insert_before l v p in SDone (LBool b) l'
  | OInsertAfter v p => match list_insert_after l v p with Some (b, l') => SDone (LBool b) l' | None => SHang end
  | OLPop => match pop_left l with Some (v, l') => SDone (LVal v) l' | None => SDone LNil l end
  | ORPop => match pop_right l with Some (v, l') => SDone (LVal v) l' | None => SDone LNil l end
  | OLPush v => SDone LNothing (push_left v l)
  | ORPush v => SDone LNothing (push_right v l)
  | ORange a b => SDone (LVals (list_range l a b)) l
  | ORemove v n => let '(k, l') := list_rem l v n in SDone (LNum k) l'
  | OSet v i => match list_index l i with
                | LI_none => SDone (LBool false) l
                | LI_at n => SDone (LBool true) (<[n := v]> l)
                | LI_crash => SCrash
                end
  | OTrim a b => match list_trim l a b with Some l' => SDone LNothing l' | None => SCrash end
  | OClear => SDone LNothing []
  | OLen => SDone (LNum (zlen l)) l
  end.
(** Arguments are 64-bit integers; a list has fewer than 2^62 elements (each takes 40 bytes). *)
Definition op_ints (o : lop) : Prop :=
  match o with
  | OIndex i | OSet _ i | ORemove _ i => min_int <= i <= max_int
  | _ => True
  end.

(** [ops_on l os rs l']: all the operations [os] return, [rs] are their results. *)
Inductive ops_on : list val -> list lop -> list lres -> list val -> Prop :=
| oo_nil l : ops_on l [] [] l
| oo_cons l o os r rs l1 l' : op_ints o -> zlen l < 2 ^ 62 -> seq_op o l = SDone r l1 ->
    ops_on l1 os rs l' -> ops_on l (o :: os) (r :: rs) l'.
Fixpoint calls (fuel : nat) (os : list lop) : M (list lres) :=
  match os with
  | [] => mret []
  | o :: r => x <== call fuel o ;; l <== calls fuel r ;; mret (x :: l)
  end.

(** [t], with nodes [ys], is another list in the same heap. *)
Definition beside (s : lst) (xs : list (nat * val)) (t : lst) (ys : list (nat * val)) : Prop :=
  rep t ys /\ cells t = cells s /\ nfree t = nfree s /\ forall a, a ∈ own s xs -> a ∉ own t ys.
(** The list [t] seen in the heap of [s]. *)
Definition in_heap_of (s t : lst) : lst := mkLst (cells s) (nfree s) (hd t) (tl t) (ln t).

(** The calls that do not return. *)
Definition bad_call (o : lop) (l : list val) : Prop :=
  match o with
  | OIndex i | OSet _ i => i = min_int
  | OInsertAfter v p => str v = str p /\ exists x, x ∈ l /\ str x = str p
  | OTrim a b => l = [] /\ a < 0 /\ 0 <= b
  | _ => False
  end.
