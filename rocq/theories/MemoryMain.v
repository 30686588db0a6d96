(** Who changes what is stored under a key, over whole executions. *)
From Verif Require Export MemoryProofs.

Section WithParams.
Context {P : Setup}.
Lemma cores_length T x y : happens T x y -> length (wcores y) = length (wcores x).
Proof. intros [H|H]; destruct H; cbn; rewrite ?insert_length; reflexivity. Qed.
Lemma handed_rtc T x y : all_peers x -> rtc (happens T) x y -> forall i p, peers x !! i = Some p -> exists q rest, peers y !! i = Some q /\ handed (lnk q) = handed (lnk p) ++ rest.
Proof.
  intros A R. revert A. induction R as [x|x z y H R IH]; intros A i p Hi; [exists p, []; rewrite app_nil_r; auto|].
  destruct (happens_pmove _ _ _ H) as [L M]. destruct (lookup_lt_is_Some_2 (peers z) i) as [p' Hp']; [rewrite L; eapply lookup_lt_Some; eauto|].
  destruct (handed_move p p' (A _ _ Hi) (M _ _ _ Hi Hp')) as [r E]. destruct (IH (all_peers_step _ _ _ A H) _ _ Hp') as (q & r' & Hq & E').
  exists q, (r ++ r'). split; auto. rewrite E', E, <- app_assoc. reflexivity.
Qed.
Lemma log_move p p' : pmove p p' -> (length (log (lnk p)) <= length (log (lnk p')))%nat.
Proof.
  intros M. destruct M; cbn; auto.
  - inversion H; subst; auto.
  - rewrite H0. auto.
  - rewrite app_length. lia.
Qed.
(** A command in execution now is one of those received by a later time. *)
Lemma performs_since T x y j i cmd : all_peers x -> rtc (happens T) x y -> performs x j i cmd -> since x y i cmd.
Proof.
  intros A R (p & Hp & Hh & _). destruct (handed_rtc _ _ _ A R _ _ Hp) as (q & r & Hq & E). exists p, q. split; [auto|]. split; [auto|].
  rewrite E. unfold handed at 1. rewrite Hh, <- app_assoc, drop_app_alt by (rewrite map_length; reflexivity). left.
Qed.
Lemma since_later T x z y i cmd : happens T x z -> since z y i cmd -> since x y i cmd.
Proof.
  intros H (p & q & Hp & Hq & Hc). destruct (back _ _ _ _ _ H Hp) as (p0 & Hp0 & M). exists p0, q. split; [auto|]. split; [auto|].
  pose proof (log_move _ _ M) as L. replace (length (log (lnk p))) with (length (log (lnk p0)) + (length (log (lnk p)) - length (log (lnk p0))))%nat in Hc by lia.
  rewrite <- drop_drop in Hc. apply elem_of_list_In in Hc. apply elem_of_list_In. rewrite <- (take_drop (length (log (lnk p)) - length (log (lnk p0))) (drop (length (log (lnk p0))) (handed (lnk q)))). apply in_or_app. auto.
Qed.
Lemma reach T sl ds n x : rtc (happens T) (boot sl ds n) x -> all_peers x /\ MI x.
Proof. intros R. split; [eapply all_peers_rtc; [exact R|apply all_peers_boot]|eapply mi_rtc; [exact R|apply mi_boot]]. Qed.
Theorem mem_changes T sl ds n x y j c c' k : rtc (happens T) (boot sl ds n) x -> happens T x y -> wcores x !! j = Some c -> wcores y !! j = Some c' ->
  (stores (cdb c) (cdb c') k -> exists i cmd, performs x j i cmd /\ k ∈ key_args cmd /\ ~ reading cmd) /\
  (differs (cdb c) (cdb c') k -> exists i cmd, performs x j i cmd /\ touched cmd k).
Proof. intros R. apply mi_changes. apply (reach _ _ _ _ _ R). Qed.
Lemma later_core T x z j c : happens T x z -> wcores x !! j = Some c -> exists c1, wcores z !! j = Some c1.
Proof. intros H Hj. apply lookup_lt_is_Some_2. rewrite (cores_length _ _ _ H). eapply lookup_lt_Some; eauto. Qed.
Theorem mem_stays T sl ds n x y j c c' k : rtc (happens T) (boot sl ds n) x -> rtc (happens T) x y -> wcores x !! j = Some c -> wcores y !! j = Some c' ->
  (forall i cmd, since x y i cmd -> ~ touched cmd k) -> dict (cdb c') !! k = dict (cdb c) !! k /\ exps (cdb c') !! k = exps (cdb c) !! k.
Proof.
  intros R0 R. revert R0 c. induction R as [x|x z y H R IH]; intros R0 c Hj Hj' HS; [assert (c' = c) as -> by congruence; auto|].
  destruct (later_core _ _ _ _ _ H Hj) as [c1 Hc1]. destruct (reach _ _ _ _ _ R0) as [A HM].
  destruct (IH (rtc_r _ _ _ R0 H) _ Hc1 Hj') as [E1 E2]; [intros i cmd Hc; apply (HS i cmd); eapply since_later; eauto|].
  destruct (mi_changes _ _ _ _ _ _ k HM H Hj Hc1) as [_ D]. rewrite E1, E2.
  assert (N : ~ differs (cdb c) (cdb c1) k).
  { intros Hd. destruct (D Hd) as (i & cmd & Hp & Ht). apply (HS i cmd); [|exact Ht]. eapply performs_since; [exact A| |exact Hp]. eapply rtc_l; eauto. }
  unfold differs in N. split; apply dec_stable; tauto.
Qed.
Theorem mem_origin T sl ds n x y j c c' k : rtc (happens T) (boot sl ds n) x -> rtc (happens T) x y -> wcores x !! j = Some c -> wcores y !! j = Some c' ->
  stores (cdb c) (cdb c') k -> exists i cmd, since x y i cmd /\ k ∈ key_args cmd /\ ~ reading cmd.
Proof.
  intros R0 R. revert R0 c. induction R as [x|x z y H R IH]; intros R0 c Hj Hj' HS.
  { assert (c' = c) as -> by congruence. destruct HS as [(v & A1 & A2)|(v & A1 & A2)]; congruence. }
  destruct (later_core _ _ _ _ _ H Hj) as [c1 Hc1]. destruct (reach _ _ _ _ _ R0) as [A HM].
  assert (Q : stores (cdb c) (cdb c1) k \/ stores (cdb c1) (cdb c') k).
  { destruct HS as [(v & A1 & A2)|(v & A1 & A2)].
    - destruct (decide (dict (cdb c1) !! k = Some v)); [left; left; eauto|right; left; eauto].
    - destruct (decide (exps (cdb c1) !! k = Some v)); [left; right; eauto|right; right; eauto]. }
  destruct Q as [Q|Q].
  - destruct (mi_changes _ _ _ _ _ _ k HM H Hj Hc1) as [D _]. destruct (D Q) as (i & cmd & Hp & Ht). exists i, cmd. split; [|exact Ht]. eapply performs_since; [exact A| |exact Hp]. eapply rtc_l; eauto.
  - destruct (IH (rtc_r _ _ _ R0 H) _ Hc1 Hj' Q) as (i & cmd & Hc & Ht). exists i, cmd. split; [|exact Ht]. eapply since_later; eauto.
Qed.
End WithParams.
