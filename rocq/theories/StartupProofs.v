(** Proofs about the lock table and the log levels. *)
From Verif Require Export Startup SpecConfig.

Lemma levels_ok i name : severities !! i = Some name -> forall l, writes l (level_of name) = true <-> Z.of_nat i <= l.
Proof.
  intros H l. assert (E : level_of name = Z.of_nat i).
  { do 5 (destruct i as [|i]; [injection H as <-; vm_compute; reflexivity|]). discriminate. }
  unfold writes. rewrite E, negb_true_iff, Z.ltb_ge. lia.
Qed.
Lemma levels_unknown name : name ∉ severities -> forall l, writes l (level_of name) = true <-> 1 <= l.
Proof.
  change severities with level_table.
  intros H l. assert (E : level_of name = 1).
  { unfold level_of. revert H. generalize 0. induction level_table as [|x t IH]; intros z H; [reflexivity|]. apply not_elem_of_cons in H as [H1 H2]. cbn [level_in].
    unfold beq. rewrite bool_decide_eq_false_2 by congruence. apply IH. exact H2. }
  unfold writes. rewrite E, negb_true_iff, Z.ltb_ge. lia.
Qed.
Lemma locks_ok (P : Setup) : Zpos segnum < max_seg_size -> exists n, new_memdb (Zpos segnum) = Some (Zpos segnum, n) /\ n = 2 * Zpos segnum /\
  forall key, lock_index n key = Some (Z.of_N (lockpos key)) /\ 0 <= Z.of_N (lockpos key) < n.
Proof.
  intros H. exists (2 * Zpos segnum). unfold max_seg_size in H. split; [|split; [reflexivity|]].
  - unfold new_memdb, new_locks, table_size, max_seg_size. cbv zeta.
    replace (wrap64 (2 * Z.pos segnum)) with (2 * Z.pos segnum) by (unfold wrap64; rewrite Z.mod_small; lia).
    replace (make_ok (2 * Z.pos segnum) 8) with true by (unfold make_ok; symmetry; apply andb_true_iff; rewrite !Z.leb_le; lia).
    replace (_ || _) with false by (symmetry; apply orb_false_iff; rewrite !Z.leb_gt; lia). reflexivity.
  - intros key. unfold lock_index, lockpos. replace (2 * Z.pos segnum =? 0) with false by (symmetry; apply Z.eqb_neq; lia).
    split; [f_equal; rewrite Z.rem_mod_nonneg by lia; rewrite N2Z.inj_mod by lia; reflexivity|].
    rewrite N2Z.inj_mod by lia. apply Z.mod_pos_bound. lia.
Qed.
