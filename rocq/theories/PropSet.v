(** Properties of the set commands: C42-C46, and C47 on empty containers. *)
From Verif Require Import GenericFacts SetCmdProofs Demo.

(** * C42  A set behaves like a finite set *)
Section C42.
Context {P : Setup}.
Theorem C42_sadd n k xs :
  named n "sadd" -> xs <> [] ->
  implements (n :: k :: xs) (single_fun (str k) (sadd_spec xs)).
Proof. exact (sadd_ok n k xs). Qed.
(** The key stays when the last member is removed. *)
Theorem C42_srem n k xs :
  named n "srem" -> xs <> [] ->
  implements (n :: k :: xs) (single_fun (str k) (srem_spec xs)).
Proof. exact (srem_ok n k xs). Qed.
Theorem C42_sismember n k x :
  named n "sismember" ->
  implements [n; k; x] (single_fun (str k) (sismember_spec (str x))).
Proof. exact (sismember_ok n k x). Qed.
Theorem C42_scard n k :
  named n "scard" -> implements [n; k] (single_fun (str k) scard_spec).
Proof. exact (scard_ok n k). Qed.
Theorem C42_smembers n k :
  named n "smembers" -> implements [n; k] (single (str k) smembers_spec).
Proof. exact (smembers_ok n k). Qed.
End C42.
Print Assumptions C42_sadd.
Print Assumptions C42_srem.
Print Assumptions C42_sismember.
Print Assumptions C42_scard.
Print Assumptions C42_smembers.
Example C42_example :
  demo_does 100 demo ["sadd"; "t"; "a"; "x"; "a"] (RInt 1) "t" (eset ["a"; "x"; "y"; "z"] None) /\
  demo_does 100 demo ["srem"; "t"; "q"; "x"; "x"] (RInt 1) "t" (eset ["y"; "z"] None) /\
  demo_does 100 demo ["sismember"; "t"; "x"] (RInt 1) "t" (eset ["x"; "y"; "z"] None) /\
  demo_does 100 demo ["sismember"; "t"; "q"] (RInt 0) "t" (eset ["x"; "y"; "z"] None) /\
  demo_does 100 demo ["scard"; "t"] (RInt 3) "t" (eset ["x"; "y"; "z"] None) /\
  demo_does 100 demo ["smembers"; "t"] (RArr (Some [bulk "x"; bulk "z"; bulk "y"])) "t" (eset ["x"; "y"; "z"] None).
Proof. repeat apply conj; demo. Qed.

(** * C43  Set algebra *)
Section C43.
Context {P : Setup}.
(** SUNION, SINTER and SDIFF; no named key may have expired. *)
Theorem C43_setop op n k ks :
  named n (setop_word op) ->
  implements_on (fun now d => forall x, x ∈ k :: ks -> unexpired now d (str x)) (n :: k :: ks)
    (setop_spec op (str k) (map str ks)).
Proof. exact (setop_ok op n k ks). Qed.
End C43.
Print Assumptions C43_setop.
Example C43_example :
  (forall x, x ∈ [Some (B "t"); Some (B "u")] -> unexpired 100 demo (str x)) /\
  demo_does 100 demo ["sdiff"; "t"; "u"] (RArr (Some [bulk "x"; bulk "z"])) "t" (eset ["x"; "y"; "z"] None) /\
  demo_does 100 demo ["sinter"; "t"; "u"] (RArr (Some [bulk "y"])) "t" (eset ["x"; "y"; "z"] None) /\
  demo_does 100 demo ["sunion"; "t"; "u"; "missing"] (RArr (Some [bulk "x"; bulk "z"; bulk "y"; bulk "w"])) "t" (eset ["x"; "y"; "z"] None) /\
  demo_does 100 demo ["sinter"; "t"; "u"; "missing"] (RArr None) "t" (eset ["x"; "y"; "z"] None) /\
  demo_does 100 demo ["sinter"; "t"; "s"] err_wrong_kind "t" (eset ["x"; "y"; "z"] None).
Proof.
  split; [|repeat apply conj; demo]. intros x Hx t Ht.
  repeat (apply elem_of_cons in Hx as [->|Hx]; [vm_compute in Ht; discriminate|]). inversion Hx.
Qed.

(** * C44  Stored set algebra *)
Section C44.
Context {P : Setup}.
(** The operands are unexpired sets or missing; for SINTERSTORE only the first may be missing. *)
Theorem C44_setopstore op n dst k ks :
  named n (setopstore_word op) ->
  implements_on (store_pre op k ks) (n :: dst :: k :: ks)
    (setopstore_spec op (str dst) (str k) (map str ks)).
Proof. exact (setopstore_ok op n dst k ks). Qed.
End C44.
Print Assumptions C44_setopstore.
Example C44_example :
  store_pre OpInter (Some (B "t")) [Some (B "u")] 100 demo /\
  demo_does 100 demo ["sinterstore"; "n"; "t"; "u"] (RInt 1) "n" (eset ["y"] None) /\
  demo_does 100 demo ["sunionstore"; "t"; "t"; "u"; "missing"] (RInt 4) "t" (eset ["x"; "y"; "z"; "w"] None) /\
  demo_does 100 demo ["sdiffstore"; "new"; "t"; "u"] (RInt 2) "new" (eset ["x"; "z"] None).
Proof.
  split; [|repeat apply conj; demo]. split.
  - intros x Hx. repeat (apply elem_of_cons in Hx as [->|Hx];
      [split; [intros t Ht; vm_compute in Ht; discriminate|vm_compute; discriminate]|]). inversion Hx.
  - intros _ k Hk. apply elem_of_cons in Hk as [->|Hk]; [vm_compute; discriminate|inversion Hk].
Qed.
(** A missing source other than the first is ignored by SINTERSTORE. *)
Theorem C44_missing_refuted :
  demo_does 100 demo ["sinterstore"; "new"; "t"; "missing"] (RInt 3) "new" (eset ["x"; "y"; "z"] None) /\
  demo_does 100 demo ["sinter"; "t"; "missing"] (RArr None) "new" None.
Proof. split; demo. Qed.
(** If all operands have expired, the destination is not written. *)
Theorem C44_expired_refuted :
  demo_does 100 demo ["sunionstore"; "t"; "old"] (RInt 0) "t" (eset ["x"; "y"; "z"] None) /\
  demo_does 100 demo ["sunionstore"; "t"; "missing"] (RInt 0) "t" (eset [] None).
Proof. split; demo. Qed.

(** * C45  SMOVE *)
Section C45.
Context {P : Setup}.
Theorem C45_smove n a b m :
  named n "smove" ->
  implements [n; a; b; m] (smove_spec (str a) (str b) (str m)).
Proof. exact (smove_ok n a b m). Qed.
End C45.
Print Assumptions C45_smove.
Example C45_example :
  demo_does 100 demo ["smove"; "u"; "t"; "w"] (RInt 1) "t" (eset ["x"; "y"; "z"; "w"] None) /\
  demo_does 100 demo ["smove"; "u"; "t"; "w"] (RInt 1) "u" (eset ["y"] None) /\
  demo_does 100 demo ["smove"; "u"; "u"; "w"] (RInt 1) "u" (eset ["y"; "w"] None) /\
  demo_does 100 demo ["smove"; "u"; "t"; "q"] (RInt 0) "t" (eset ["x"; "y"; "z"] None).
Proof. repeat apply conj; demo. Qed.
Theorem C45_missing_refuted :
  demo_does 100 demo ["smove"; "u"; "new"; "w"] (RInt 0) "new" None /\
  demo_does 100 demo ["smove"; "u"; "new"; "w"] (RInt 0) "u" (eset ["y"; "w"] None).
Proof. split; demo. Qed.

(** * C46  SPOP and SRANDMEMBER *)
Section C46.
Context {P : Setup}.
Theorem C46_spop n k :
  named n "spop" -> implements [n; k] (single (str k) spop_spec).
Proof. exact (spop_ok n k). Qed.
Theorem C46_spop_count n k a c :
  named n "spop" -> atoi (str a) = Some c -> 0 < c ->
  implements [n; k; a] (single (str k) (spopn_spec c)).
Proof. exact (spopn_ok n k a c). Qed.
(** The set must not be empty. *)
Theorem C46_srandmember n k :
  named n "srandmember" ->
  implements_when (set_nonempty (str k)) [n; k] (single (str k) srandmember_spec).
Proof. exact (srandmember_ok n k). Qed.
Theorem C46_srandmember_count n k a c :
  named n "srandmember" -> atoi (str a) = Some c ->
  c <> 0 -> Z.abs c * 16 <= 2 ^ 48 ->
  implements_when (fun now S => set_nonempty (str k) now S \/ 0 < c) [n; k; a]
    (single (str k) (srandmembern_spec c)).
Proof. exact (srandmembern_ok n k a c). Qed.
Theorem C46_srandmember_zero n k a :
  named n "srandmember" -> atoi (str a) = Some 0 ->
  implements [n; k; a] (single_fun (str k) (always (RBulk None))).
Proof. exact (srandmember0_ok n k a). Qed.
End C46.
Print Assumptions C46_spop.
Print Assumptions C46_spop_count.
Print Assumptions C46_srandmember.
Print Assumptions C46_srandmember_count.
Print Assumptions C46_srandmember_zero.
Example C46_example :
  set_nonempty (B "t") 100 (view 100 demo) /\
  demo_does 100 demo ["spop"; "t"] (bulk "x") "t" (eset ["y"; "z"] None) /\
  demo_does 100 demo ["spop"; "t"; "2"] (RArr (Some [bulk "x"; bulk "z"])) "t" (eset ["y"] None) /\
  demo_does 100 demo ["spop"; "t"; "5"] (RArr (Some [bulk "x"; bulk "z"; bulk "y"])) "t" None /\
  demo_does 100 demo ["srandmember"; "t"] (bulk "x") "t" (eset ["x"; "y"; "z"] None) /\
  demo_does 100 demo ["srandmember"; "t"; "2"] (RArr (Some [bulk "x"; bulk "z"])) "t" (eset ["x"; "y"; "z"] None) /\
  demo_does 100 demo ["srandmember"; "t"; "-4"] (RArr (Some [bulk "x"; bulk "x"; bulk "x"; bulk "x"])) "t" (eset ["x"; "y"; "z"] None) /\
  demo_does 100 demo ["srandmember"; "t"; "0"] (RBulk None) "t" (eset ["x"; "y"; "z"] None).
Proof.
  split; [|repeat apply conj; demo]. intros dl H.
  assert (E : bool_decide (view 100 demo (B "t") = Some (VSet ∅, None)) = false) by (vm_compute; reflexivity).
  apply bool_decide_eq_false in E. apply E. rewrite H. f_equal. f_equal.
  assert (E2 : option_map snd (view 100 demo (B "t")) = Some None) by (vm_compute; reflexivity).
  rewrite H in E2. cbn in E2. congruence.
Qed.
(** A set emptied by SREM makes SRANDMEMBER crash the server. *)
Theorem C46_empty_refuted : then_dies 100 demo [["srem"; "u"; "y"; "w"]] ["srandmember"; "u"].
Proof. demo. Qed.
(** An empty member is reported as null. *)
Theorem C46_null_refuted : then_does 100 demo [["sadd"; "v"; ""]] ["spop"; "v"] (RBulk None) "v" None.
Proof. demo. Qed.
(** A huge count crashes the server. *)
Theorem C46_huge_refuted : dies 100 demo ["srandmember"; "t"; "9223372036854775807"].
Proof. demo. Qed.

(** * C47  Empty containers *)
(** Five ways to leave an empty container behind. *)
Theorem C47_srem_refuted : demo_does 100 demo ["srem"; "u"; "y"; "w"] (RInt 2) "u" (eset [] None).
Proof. demo. Qed.
Theorem C47_store_refuted : demo_does 100 demo ["sinterstore"; "new"; "missing"; "t"] (RInt 0) "new" (eset [] None).
Proof. demo. Qed.
Theorem C47_lmove_refuted : demo_does 100 demo ["lmove"; "s"; "new"; "left"; "left"] err_wrong_kind "new" (elist [] None).
Proof. demo. Qed.
Theorem C47_hincrby_refuted :
  demo_does 100 demo ["hincrby"; "new"; "f"; "x"] err_int "new" (ehash [] None) /\
  demo_does 100 demo ["hincrbyfloat"; "new"; "f"; "x"] err_float "new" (ehash [] None).
Proof. split; demo. Qed.
