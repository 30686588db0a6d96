(** A command that has its keys to itself. *)
From Verif Require Export OnlyReadMain TallyProg.

Section WithParams.
Context {P : Setup} (T : Z -> Prop) (ks : list bytes).
Lemma may_same {A} (W D : bytes -> Prop) d1 (p : prog A) d2 p' : prim T d1 p d2 p' -> may W D p -> (forall k, k ∈ ks -> ~ W k /\ ~ D k) -> same_on ks d1 d2.
Proof.
  intros H HM HN. destruct H; inversion HM; subst; intros k0 Hk; destruct (HN _ Hk); cbn; auto.
  - rewrite lookup_insert_ne by (intros ->; contradiction). auto.
  - rewrite lookup_alter_ne by (intros ->; contradiction). auto.
  - rewrite lookup_delete_ne by (intros ->; contradiction). auto.
  - rewrite lookup_insert_ne by (intros ->; contradiction). auto.
  - rewrite lookup_delete_ne by (intros ->; contradiction). auto.
Qed.
Lemma same_trans d d1 d2 : same_on ks d d1 -> same_on ks d1 d2 -> same_on ks d d2.
Proof. intros H1 H2 k Hk. destruct (H1 k Hk), (H2 k Hk). split; congruence. Qed.
Context (d : db) (cmd : command) (HA : about ks cmd).
(** An execution alone that has come as far as [p], up to the counter. *)
Definition track (d1 : db) (p : prog rdata) : Prop :=
  exists e q, same_on ks e d1 /\ eqc p q /\ (exists u h h', wf (touched cmd) u false h' h p) /\ forall out, runs T e q out -> runs T d (exec_in_db cmd) out.
Lemma track_prim d1 p d2 p' : prim T d1 p d2 p' -> track d1 p -> track d2 p'.
Proof.
  intros H (e & q & HS & HQ & (u & h & h' & HW) & HR). destruct H; inversion HW; subst; inversion HQ; subst; try (assert (KK : key ∈ ks) by (apply (proj2 HA); assumption)).
  - exists e, Hang. split; [auto|]. split; [constructor|]. split; [exists u, h, h'; constructor|auto].
  - eexists e, _. split; [exact HS|]. split; [eauto|]. split; [exists u, h, h'; auto|]. intros out Ho. apply HR. econstructor; eauto.
  - eexists e, _. split; [exact HS|]. split; [eauto|]. split; [exists u, h, h'; auto|]. intros out Ho. apply HR. econstructor; eauto.
  - eexists e, _. split; [exact HS|]. split; [eauto|]. split; [exists u, h, h'; auto|]. intros out Ho. apply HR. constructor. rewrite <- (proj1 (HS key KK)). exact Ho.
  - eexists (mkDb (<[key := v]> (dict e)) (exps e) (cnt e)), _. split; [|split; [eauto|split; [exists u, h, h'; auto|]]].
    + intros k0 Hk. destruct (HS _ Hk) as [E1 E2]. cbn. split; [|auto]. destruct (decide (key = k0)) as [->|]; [rewrite !lookup_insert; auto|rewrite !lookup_insert_ne by auto; auto].
    + intros out Ho. apply HR. constructor. rewrite <- (proj1 (HS key KK)). exact Ho.
  - eexists (mkDb (alter (fun _ => v) key (dict e)) (exps e) (cnt e)), _. split; [|split; [eauto|split; [exists u, h, h'; auto|]]].
    + intros k0 Hk. destruct (HS _ Hk) as [E1 E2]. cbn. split; [|auto]. destruct (decide (key = k0)) as [->|]; [rewrite !lookup_alter, E1; auto|rewrite !lookup_alter_ne by auto; auto].
    + intros out Ho. apply HR. constructor. exact Ho.
  - eexists (mkDb (delete key (dict e)) (exps e) (cnt e)), _. split; [|split; [eauto|split; [exists u, h, h'; auto|]]].
    + intros k0 Hk. destruct (HS _ Hk) as [E1 E2]. cbn. split; [|auto]. destruct (decide (key = k0)) as [->|]; [rewrite !lookup_delete; auto|rewrite !lookup_delete_ne by auto; auto].
    + intros out Ho. apply HR. constructor. rewrite <- (proj1 (HS key KK)). exact Ho.
  - discriminate.
  - eexists e, _. split; [exact HS|]. split; [match goal with H : forall x x', eqc _ _ |- _ => apply (H _ (cnt e)) end|]. split; [exists u, h, h'; auto|]. intros out Ho. apply HR. constructor. exact Ho.
  - eexists (mkDb (dict e) (exps e) _), _. split; [|split; [eauto|split; [exists u, h, h'; auto|]]]; [|intros out Ho; apply HR; constructor; exact Ho]. exact HS.
  - eexists e, _. split; [exact HS|]. split; [eauto|]. split; [exists u, h, h'; auto|]. intros out Ho. apply HR. constructor. rewrite <- (proj2 (HS key KK)). exact Ho.
  - eexists (mkDb (dict e) (<[key := t]> (exps e)) (cnt e)), _. split; [|split; [eauto|split; [exists u, h, h'; auto|]]].
    + intros k0 Hk. destruct (HS _ Hk) as [E1 E2]. cbn. split; [auto|]. destruct (decide (key = k0)) as [->|]; [rewrite !lookup_insert; auto|rewrite !lookup_insert_ne by auto; auto].
    + intros out Ho. apply HR. constructor. exact Ho.
  - eexists (mkDb (dict e) (delete key (exps e)) (cnt e)), _. split; [|split; [eauto|split; [exists u, h, h'; auto|]]].
    + intros k0 Hk. destruct (HS _ Hk) as [E1 E2]. cbn. split; [auto|]. destruct (decide (key = k0)) as [->|]; [rewrite !lookup_delete; auto|rewrite !lookup_delete_ne by auto; auto].
    + intros out Ho. apply HR. constructor. rewrite <- (proj2 (HS key KK)). exact Ho.
Qed.
Lemma track_lock d1 pos m p : track d1 (Acq pos m p) \/ track d1 (Rel pos m p) -> track d1 p.
Proof.
  intros [(e & q & HS & HQ & (u & h & h' & HW) & HR)|(e & q & HS & HQ & (u & h & h' & HW) & HR)]; inversion HQ; subst; eexists e, _; (split; [exact HS|]); (split; [eauto|]);
    (split; [inversion HW; subst; eexists u, _, h'; eauto|]); intros out Ho; apply HR; constructor; exact Ho.
Qed.
Lemma track_other d1 d2 p : same_on ks d1 d2 -> track d1 p -> track d2 p.
Proof. intros H (e & q & HS & G). exists e, q. split; [eapply same_trans; eauto|exact G]. Qed.
Lemma track_start : track d (exec_in_db cmd).
Proof.
  exists d, (exec_in_db cmd). split; [intros k _; auto|]. pose proof (about_not_keys ks cmd HA) as E. split; [apply blind_exec; exact E|]. split; [|auto].
  pose proof (exec_wf cmd) as W. unfold cmd_wf in W. rewrite E in W. eexists _, _, _. exact W.
Qed.
Lemma track_end d1 r : track d1 (Ret r) -> exists d', runs T d (exec_in_db cmd) (Done r d') /\ same_on ks d' d1.
Proof. intros (e & q & HS & HQ & _ & HR). inversion HQ; subst. exists e. split; [apply HR; constructor|exact HS]. Qed.
End WithParams.

Section Process.
Context {P : Setup} (T : Z -> Prop) (ks : list bytes) (d : db) (cmd : command) (HA : about ks cmd) (j i : nat).
Lemma perf_next x z p p' : all_peers x -> happens T x z -> performs x j i cmd -> peers x !! i = Some p -> peers z !! i = Some p' -> log (lnk p') = log (lnk p) -> performs z j i cmd.
Proof.
  intros A H (p0 & Hp0 & Hh & Hr) Hp Hp' El. assert (p0 = p) as -> by congruence.
  assert (L : forall (ps : list peer) i0 (a b : peer), ps !! i0 = Some a -> ps !! i = Some p -> <[i0 := b]> ps !! i = Some p' -> p' = p \/ i0 = i /\ p = a /\ p' = b).
  { intros ps i0 a b H0 H1 H2. destruct (decide (i0 = i)) as [->|Hn]; [|rewrite list_lookup_insert_ne in H2 by auto; left; congruence].
    rewrite list_lookup_insert in H2 by (eapply lookup_lt_Some; eauto). right. split; [auto|]. split; congruence. }
  exists p'. split; [exact Hp'|].
  destruct H as [H|H]; destruct H; cbn in Hp, Hp'; try (assert (p' = p) as -> by congruence; auto);
    match goal with H0 : ?ps !! ?i0 = Some _, Hq : <[?i0 := _]> ?ps !! i = Some p' |- _ => destruct (L _ _ _ _ H0 Hp Hq) as [->|(-> & -> & ->)]; [auto|]; cbn in *; try (split; assumption); try discriminate Hr end.
  - split; [|exact Hr]. erewrite busy_client by eassumption. exact Hh.
  - split; [|exact Hr]. eapply busy_link; eauto.
  - exfalso. unfold reply_to in El. cbn in El. apply (f_equal length) in El. rewrite app_length in El. cbn in El. lia.
Qed.
Lemma track_step x z y c t : all_peers x -> MI x -> happens T x z -> rtc (happens T) x y -> performs x j i cmd -> performs z j i cmd ->
  (forall i' cmd' k, since x y i' cmd' -> i' <> i -> k ∈ ks -> ~ touched cmd' k) ->
  wcores x !! j = Some c -> ths c !! i = Some t -> track T ks d cmd (cdb c) (tcode t) ->
  exists c1 t1, wcores z !! j = Some c1 /\ ths c1 !! i = Some t1 /\ track T ks d cmd (cdb c1) (tcode t1).
Proof.
  intros A HM H R HP _ HS Hj Ht HK.
  assert (SAME : wcores z = wcores x -> exists c1 t1, wcores z !! j = Some c1 /\ ths c1 !! i = Some t1 /\ track T ks d cmd (cdb c1) (tcode t1)).
  { intros ->. exists c, t. auto. }
  destruct H as [H|H]; destruct H; try (apply SAME; reflexivity).
  - destruct (decide (j = sl)) as [->|Hn].
    + eexists _, t. cbn. cbn in Hj. rewrite list_lookup_insert by (eapply lookup_lt_Some; eauto). split; [reflexivity|]. assert (c0 = c) as -> by congruence. cbn.
      rewrite list_lookup_insert_ne; [auto|]. intros ->. destruct HP as (p0 & Hp0 & _ & Hr). cbn in Hp0. rewrite H in Hp0. injection Hp0 as <-. discriminate Hr.
    + exists c, t. cbn. rewrite list_lookup_insert_ne by auto. auto.
  - destruct (decide (j = j0)) as [->|Hn]; [|exists c, t; cbn; rewrite list_lookup_insert_ne by auto; auto]. cbn in Hj. assert (c0 = c) as -> by congruence.
    assert (G : exists i0 q q' b', ths c' = <[i0 := mkT q' b']> (ths c) /\ (exists b, ths c !! i0 = Some (mkT q b)) /\ (forall r, q <> Ret r) /\
      (prim T (cdb c) q (cdb c') q' \/ cdb c' = cdb c /\ (track T ks d cmd (cdb c) q -> track T ks d cmd (cdb c) q'))).
    { destruct H0; cbn; eexists i0, _, _, _; (split; [reflexivity|]); (split; [eexists; eassumption|]).
      1: { split; [intros r ->; inversion H1|left; exact H1]. }
      all: split; [discriminate|]; right; split; [reflexivity|]; intros Hc; first [exact Hc|eapply track_lock; left; exact Hc|eapply track_lock; right; exact Hc]. }
    destruct G as (i0 & q & q' & b' & Hc' & (b & Hi0) & Hq & HPR). exists c'. cbn. rewrite list_lookup_insert by (eapply lookup_lt_Some; eauto). rewrite Hc'. destruct (decide (i0 = i)) as [->|Hn].
    + exists (mkT q' b'). rewrite list_lookup_insert by (eapply lookup_lt_Some; eauto). split; [reflexivity|]. split; [reflexivity|]. assert (t = mkT q b) as -> by congruence. cbn in HK |- *.
      destruct HPR as [HPR|[-> HPR]]; [|auto]. eapply track_prim; eauto.
    + exists t. rewrite list_lookup_insert_ne by auto. split; [reflexivity|]. split; [auto|]. destruct HPR as [HPR|[-> _]]; [|exact HK].
      destruct (HM _ _ _ _ Hj Hi0) as [[r Hr]|(p0 & cmd0 & A1 & A2 & A3 & A4)]; [destruct (Hq r Hr)|]. cbn in A4. eapply track_other; [|exact HK]. eapply may_same; [exact HPR|exact A4|].
      intros k Hk. assert (N : ~ touched cmd0 k) by (eapply (HS i0 cmd0 k); [eapply exec_since; eauto|exact Hn|exact Hk]). split; [intros [G _]; apply N; left; exact G|exact N].
Qed.
Theorem alone_command x y p q c c' r b : rtc (happens T) x y -> all_peers x -> MI x -> performs x j i cmd -> peers x !! i = Some p -> peers y !! i = Some q -> log (lnk q) = log (lnk p) ->
  (forall i' cmd' k, since x y i' cmd' -> i' <> i -> k ∈ ks -> ~ touched cmd' k) ->
  wcores x !! j = Some c -> (exists t, ths c !! i = Some t /\ track T ks d cmd (cdb c) (tcode t)) -> wcores y !! j = Some c' -> ths c' !! i = Some (mkT (Ret r) b) ->
  exists d', runs T d (exec_in_db cmd) (Done r d') /\ same_on ks d' (cdb c').
Proof.
  intros R. revert p c. induction R as [x|x z y H R IH]; intros p c A HM HP Hp Hq El HS Hj (t & Ht & HK) Hj' Hr.
  { assert (c' = c) as -> by congruence. assert (t = mkT (Ret r) b) as -> by congruence. eapply track_end; eauto. }
  destruct (happens_pmove _ _ _ H) as [L _]. destruct (lookup_lt_is_Some_2 (peers z) i) as [p' Hp']; [rewrite L; eapply lookup_lt_Some; eauto|].
  assert (E1 : log (lnk p') = log (lnk p)).
  { destruct (log_grows _ _ _ _ _ _ R Hp' Hq) as [rest E]. destruct (step_log _ _ _ _ _ _ H Hp Hp') as [E'|(c2 & r2 & E' & _)]; [exact E'|]. exfalso.
    rewrite El, E' in E. apply (f_equal length) in E. rewrite !app_length in E. cbn in E. lia. }
  pose proof (perf_next x z p p' A H HP Hp Hp' E1) as HP'.
  destruct (track_step x z y c t A HM H (rtc_l _ _ _ _ H R) HP HP' HS Hj Ht HK) as (c1 & t1 & Hc1 & Ht1 & HK1).
  apply (IH p' c1 (all_peers_step _ _ _ A H) (mi_step _ _ _ HM H) HP' Hp' Hq); auto; [congruence| |eauto].
  intros i' cmd' k Hc. apply (HS i' cmd' k). eapply since_later; eauto.
Qed.
End Process.
Section Whole.
Context {P : Setup}.
Theorem alone_whole (T T' : Z -> Prop) ks sl ds n x y i j p q cmd c c' r b : rtc (happens T) (boot sl ds n) x -> rtc (happens T') x y ->
  peers x !! i = Some p -> performs x j i cmd -> wcores x !! j = Some c -> ths c !! i = Some (mkT (exec_in_db cmd) false) -> about ks cmd ->
  peers y !! i = Some q -> log (lnk q) = log (lnk p) -> (forall i' cmd' k, since x y i' cmd' -> i' <> i -> k ∈ ks -> ~ touched cmd' k) ->
  wcores y !! j = Some c' -> ths c' !! i = Some (mkT (Ret r) b) ->
  exists d', runs T' (cdb c) (exec_in_db cmd) (Done r d') /\ same_on ks d' (cdb c').
Proof.
  intros R R' Hp HP Hj Ht Ha Hq El HS Hj' Hr. destruct (reach _ _ _ _ _ R) as [A HM].
  eapply (alone_command T' ks (cdb c) cmd Ha j i x y p q c c' r b R' A HM HP Hp Hq El HS Hj); [|exact Hj'|exact Hr]. exists (mkT (exec_in_db cmd) false). split; [exact Ht|]. cbn [tcode]. exact (track_start T' ks (cdb c) cmd Ha).
Qed.
End Whole.
