(** C41: the linked list (memdb/list_struct.go) implements a sequence. *)
From Verif Require Export DListCall.

Section C41.
(** Every method, on every well-formed list representing [l]: it returns the result of the operation on [l] and the pointers
    represent the new sequence; or it dereferences nil; or it never returns. *)
Theorem C41_methods o s l : represents s l -> op_ints o -> zlen l < 2 ^ 62 ->
  match seq_op o l with
  | SDone r l' => exists n, forall fuel, (n <= fuel)%nat -> exists s', call fuel o s = Ok r s' /\ represents s' l'
  | SCrash => exists n, forall fuel, (n <= fuel)%nat -> call fuel o s = NilDeref
  | SHang => forall fuel, call fuel o s = NoFuel
  end.
Proof. exact (represents_ends o s l). Qed.
(** Exactly these calls do not return: Index and Set with the minimum integer, InsertAfter of a copy of a pivot that occurs,
    Trim of an empty list with a negative start and a non-negative end. *)
Theorem C41_returns o l : op_ints o -> zlen l < 2 ^ 62 -> (exists r l', seq_op o l = SDone r l') <-> ~ bad_call o l.
Proof. exact (returns_iff o l). Qed.
(** Every history of a new list, created in any heap [h] with the numbers from [k] on unused. *)
Theorem C41_histories os rs l h k : (forall a, (k <= a)%nat -> h !! a = None) -> ops_on [] os rs l ->
  exists n, forall fuel, (n <= fuel)%nat -> exists s, calls fuel os (new_list h k) = Ok rs s /\ represents s l.
Proof. exact (history_ok os rs l h k). Qed.
(** Methods of one list leave every other list as it is. *)
Theorem C41_others o s xs t ys r l : rep s xs -> op_ints o -> zlen xs < 2 ^ 62 -> seq_op o (map snd xs) = SDone r l -> beside s xs t ys ->
  exists n, forall fuel, (n <= fuel)%nat ->
  exists s' xs', call fuel o s = Ok r s' /\ rep s' xs' /\ map snd xs' = l /\ beside s' xs' (in_heap_of s' t) ys.
Proof. exact (call_beside o s xs t ys r l). Qed.
End C41.
Print Assumptions C41_methods.
Print Assumptions C41_returns.
Print Assumptions C41_histories.
Print Assumptions C41_others.

Definition v (s : string) : val := Some (B s).
Definition abcb := [ORPush (v "b"); OLPush (v "a"); ORPush (v "c"); OInsertAfter (v "x") (v "c"); OSet (v "b") (-1)].
Example C41_example :
  ops_on [] (abcb ++ [ORange 0 (-1); ORemove (v "b") (-1); OTrim 1 9; OLPop; OIndex 0; OLen])
    [LNothing; LNothing; LNothing; LBool true; LBool true; LVals [v "a"; v "b"; v "c"; v "b"]; LNum 1; LNothing; LVal (v "b");
     LVal (v "c"); LNum 1] [v "c"].
Proof. repeat (eapply oo_cons; [cbv; auto; split; discriminate|reflexivity|vm_compute; reflexivity|]). constructor. Qed.
(** Two lists in one heap. *)
Example C41_others_example :
  let s := new_list ∅ 0 in let t := new_list (cells s) (nfree s) in beside (in_heap_of t s) [] t [].
Proof.
  repeat apply conj; try reflexivity.
  - apply new_list_rep. intros a Ha. cbn in *. rewrite !lookup_insert_ne by lia. apply lookup_empty.
  - cbn. unfold own. cbn. intros a Ha Hb. rewrite !elem_of_cons, elem_of_nil in *. lia.
Qed.
(** Violations: the methods that do not return. *)
Theorem C41_insert_after_refuted : seq_op (OInsertAfter (v "a") (v "a")) [v "a"] = SHang.
Proof. vm_compute. reflexivity. Qed.
Theorem C41_trim_refuted : seq_op (OTrim (-1) 0) [] = SCrash.
Proof. vm_compute. reflexivity. Qed.
Theorem C41_index_refuted : seq_op (OIndex min_int) [v "a"] = SCrash /\ seq_op (OSet (v "x") min_int) [v "a"] = SCrash.
Proof. vm_compute. auto. Qed.
