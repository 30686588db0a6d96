(** Keys that are only read: the process. *)
From Verif Require Export OnlyReadProofs.

Section WithParams.
Context {P : Setup} (T : Z -> Prop) (ks : list bytes) (d : db) (HT : lasting T ks d).
Definition follows (cmd : command) (q : prog rdata) : Prop :=
  leaves T ks d q /\ (about ks cmd -> rooted T ks d q /\ forall out, runs T d q out -> runs T d (exec_in_db cmd) out).
Lemma follows_prim d1 q d2 q' cmd : prim T d1 q d2 q' -> same_on ks d d1 -> follows cmd q -> same_on ks d d2 /\ follows cmd q'.
Proof.
  intros H HS [H1 H2]. destruct (leaves_prim _ _ _ _ _ _ _ H H1 HS) as [E1 E2]. split; [auto|]. split; [auto|]. intros HA. destruct (H2 HA) as [G1 G2].
  destruct (rooted_prim _ _ _ _ _ _ _ H G1 HS) as [F1 F2]. auto.
Qed.
Lemma follows_lock cmd pos m (q : prog rdata) : follows cmd (Acq pos m q) \/ follows cmd (Rel pos m q) -> follows cmd q.
Proof.
  intros [[H1 H2]|[H1 H2]]; (split; [inversion H1; auto|]); intros HA; destruct (H2 HA) as [G1 G2]; (split; [inversion G1; auto|]); intros out Ho; apply G2; constructor; exact Ho.
Qed.
Definition FI (x : world) (j : nat) : Prop :=
  forall c, wcores x !! j = Some c -> same_on ks d (cdb c) /\ forall i cmd t, performs x j i cmd -> ths c !! i = Some t -> follows cmd (tcode t).
Lemma fi_same x y j : FI x j -> wcores y = wcores x -> (forall i cmd, performs y j i cmd -> performs x j i cmd) -> FI y j.
Proof. intros HX E HB c Hc. rewrite E in Hc. destruct (HX c Hc) as [H1 H2]. split; auto. intros i cmd t Hp. apply H2. auto. Qed.
Lemma cstep_follows x j c c' : MI x -> wcores x !! j = Some c -> cstep T c c' -> same_on ks d (cdb c) -> (forall i cmd t, performs x j i cmd -> ths c !! i = Some t -> follows cmd (tcode t)) ->
  same_on ks d (cdb c') /\ forall i cmd t, performs x j i cmd -> ths c' !! i = Some t -> follows cmd (tcode t).
Proof.
  intros HM Hj St HK HT2.
  assert (G : exists i0 q q' b', ths c' = <[i0 := mkT q' b']> (ths c) /\ (exists b, ths c !! i0 = Some (mkT q b)) /\ (forall r, q <> Ret r) /\
    (prim T (cdb c) q (cdb c') q' \/ cdb c' = cdb c /\ forall cmd, follows cmd q -> follows cmd q')).
  { destruct St; cbn; eexists i, _, _, _; (split; [reflexivity|]); (split; [eexists; eassumption|]).
    1: { split; [intros r ->; inversion H0|left; exact H0]. }
    all: split; [discriminate|]; right; split; [reflexivity|]; intros cmd Hc; first [exact Hc|eapply follows_lock; left; exact Hc|eapply follows_lock; right; exact Hc]. }
  destruct G as (i0 & q & q' & b' & Hc' & (b & Hi0) & Hq & HP). destruct (HM _ _ _ _ Hj Hi0) as [[r Hr]|(p0 & cmd0 & A1 & A2 & A3 & _)]; [destruct (Hq r Hr)|].
  assert (Q0 : performs x j i0 cmd0) by (exists p0; auto). pose proof (HT2 _ _ _ Q0 Hi0) as T0. cbn in T0.
  assert (U : forall cmd, performs x j i0 cmd -> cmd = cmd0). { intros cmd (p1 & B1 & B2 & _). congruence. }
  assert (G : same_on ks d (cdb c') /\ follows cmd0 q').
  { destruct HP as [HP|[-> HP]]; [exact (follows_prim _ _ _ _ _ HP HK T0)|]. auto. }
  destruct G as (G1 & G3). split; [exact G1|]. intros i cmd t Hp Ht. rewrite Hc' in Ht. destruct (decide (i0 = i)) as [<-|Hn].
  - rewrite list_lookup_insert in Ht by (eapply lookup_lt_Some; eauto). injection Ht as <-. cbn. rewrite (U _ Hp). exact G3.
  - rewrite list_lookup_insert_ne in Ht by auto. eapply HT2; eauto.
Qed.
Lemma follows_exec cmd : (forall k, k ∈ ks -> touched cmd k -> reading cmd) -> follows cmd (exec_in_db cmd).
Proof.
  intros HR. split.
  - destruct (reading_dec cmd) as [R|R]; [apply lv_cmd; auto|]. eapply may_leaves; [apply owns_exec|]. intros k Hk. cbn. assert (N : ~ touched cmd k) by (intros Ht; apply R; eauto).
    split; [intros [H _]; apply N; left; exact H|exact N].
  - intros HA. split; [|auto]. apply rooted_exec; auto. destruct HA as [[k Hk] HA]. eauto.
Qed.
Lemma fi_step x y j : all_peers x -> MI x -> FI x j -> happens T x y -> (forall i cmd k, performs y j i cmd -> k ∈ ks -> touched cmd k -> reading cmd) -> FI y j.
Proof.
  intros A HM HX [H|H] HR; destruct H; try (refine (fi_same _ _ _ HX _ _); [reflexivity|]; intros i0 cmd0 Hp; exact Hp).
  - refine (fi_same _ _ _ HX _ _); [reflexivity|]. intros i0 cmd0. eapply perf_back; [eassumption|left; reflexivity].
  - refine (fi_same _ _ _ HX _ _); [reflexivity|]. intros i0 cmd0. eapply perf_back; [eassumption|left]. unfold busy_of. cbn. erewrite (busy_client l l') by eassumption. reflexivity.
  - refine (fi_same _ _ _ HX _ _); [reflexivity|]. intros i0 cmd0. eapply perf_back; [eassumption|left; reflexivity].
  - refine (fi_same _ _ _ HX _ _); [reflexivity|]. intros i0 cmd0. eapply perf_back; [eassumption|left; reflexivity].
  - refine (fi_same _ _ _ HX _ _); [reflexivity|]. intros i0 cmd0. eapply perf_back; [eassumption|left]. unfold busy_of. cbn. destruct o as [j1|]; [|reflexivity].
    destruct (pv_run _ (A _ _ H) _ eq_refl) as (cmd1 & E & _). cbn in E. rewrite E. erewrite busy_link by eassumption. reflexivity.
  - refine (fi_same _ _ _ HX _ _); [reflexivity|]. intros i0 cmd0. eapply perf_back; [eassumption|right; reflexivity].
  - intros c0 Hc0. cbn in Hc0.
    assert (U : forall i0 cmd0, i0 <> i -> performs (mkW sl (<[sl:={| cdb := cdb c; lk := lk c; ths := <[i:=mkT (exec_in_db cmd) false]> (ths c) |}]> cs) (<[i:=mkPeer Served l (Some sl) w]> ps) sg Running) j i0 cmd0 ->
      performs (mkW sl cs ps sg Running) j i0 cmd0).
    { intros i0 cmd0 Hn (q & Hq & Hh & Hr). cbn in Hq. rewrite list_lookup_insert_ne in Hq by auto. exists q. auto. }
    destruct (decide (j = sl)) as [->|Hn].
    + rewrite list_lookup_insert in Hc0 by (eapply lookup_lt_Some; eauto). injection Hc0 as <-. destruct (HX c H3) as [X1 X2]. split; [exact X1|]. cbn. intros i0 cmd0 t Hp Ht. destruct (decide (i0 = i)) as [->|Hi].
      * rewrite list_lookup_insert in Ht by (apply lookup_lt_Some in Ht; rewrite insert_length in Ht; auto). injection Ht as <-. cbn. pose proof (fun k => HR _ _ k Hp) as Hrd.
        destruct Hp as (q & Hq & Hh & Hr). cbn in Hq. rewrite list_lookup_insert in Hq by (eapply lookup_lt_Some; eauto). injection Hq as <-. cbn in Hh. assert (cmd0 = cmd) as -> by congruence.
        apply follows_exec; auto.
      * rewrite list_lookup_insert_ne in Ht by auto. eapply X2; [eapply U; eauto|exact Ht].
    + rewrite list_lookup_insert_ne in Hc0 by auto. destruct (HX c0 Hc0) as [X1 X2]. split; [exact X1|]. intros i0 cmd0 t Hp Ht. destruct (decide (i0 = i)) as [->|Hi]; [|eapply X2; [eapply U; eauto|exact Ht]].
      destruct Hp as (q & Hq & Hh & Hr). cbn in Hq. rewrite list_lookup_insert in Hq by (eapply lookup_lt_Some; eauto). injection Hq as <-. cbn in Hr. congruence.
  - intros c0 Hc0. cbn in Hc0. destruct (decide (j = j0)) as [->|Hn].
    + rewrite list_lookup_insert in Hc0 by (eapply lookup_lt_Some; eauto). injection Hc0 as <-. destruct (HX c H) as [X1 X2].
      exact (cstep_follows (mkW sl cs ps sg Running) j0 c c' HM H H0 X1 X2).
    + rewrite list_lookup_insert_ne in Hc0 by auto. exact (HX c0 Hc0).
  - refine (fi_same _ _ _ HX _ _); [reflexivity|]. intros i0 cmd0. eapply perf_back; [eassumption|right; reflexivity].
Qed.
Lemma fi_rtc x y j : all_peers x -> MI x -> FI x j -> rtc (happens T) x y -> (forall i cmd k, since x y i cmd -> k ∈ ks -> touched cmd k -> reading cmd) -> FI y j.
Proof.
  intros A HM HX R. revert A HM HX. induction R as [x|x z y H R IH]; auto. intros A HM HX HS.
  pose proof (all_peers_step _ _ _ A H) as A'. apply IH; auto; [eapply mi_step; eauto| |intros i cmd k Hc; apply (HS i cmd k); eapply since_later; eauto].
  apply (fi_step x z j A HM HX H). intros i cmd k Hp. apply (HS i cmd k). eapply since_later; [exact H|]. eapply performs_since; eauto.
Qed.
Lemma fi_start x j c : MI x -> wcores x !! j = Some c -> cdb c = d -> (forall i cmd k, performs x j i cmd -> k ∈ ks -> ~ touched cmd k) -> FI x j.
Proof.
  intros HM Hj He HN c0 Hc0. assert (c0 = c) as -> by congruence. split; [rewrite He; intros k _; auto|]. intros i cmd t Hp Ht.
  assert (D : forall k, k ∈ ks -> ~ touched cmd k) by (intros k; eapply HN; eauto). split.
  - destruct (HM _ _ _ _ Hj Ht) as [[r ->]|(p0 & cmd0 & A1 & A2 & A3 & A4)]; [constructor|].
    destruct Hp as (p1 & B1 & B2 & B3). assert (cmd0 = cmd) as -> by congruence.
    eapply may_leaves; [exact A4|]. intros k Hk. split; [intros [H _]; apply (D k Hk); left; exact H|exact (D k Hk)].
  - intros [[k Hk] HA]. destruct (D k (HA _ Hk) Hk).
Qed.
End WithParams.
Section Whole.
Context {P : Setup}.
Theorem only_read (T T' : Z -> Prop) ks sl ds n x y j c c' : rtc (happens T) (boot sl ds n) x -> rtc (happens T') x y ->
  wcores x !! j = Some c -> wcores y !! j = Some c' -> lasting T' ks (cdb c) ->
  (forall i cmd k, performs x j i cmd -> k ∈ ks -> ~ touched cmd k) -> (forall i cmd k, since x y i cmd -> k ∈ ks -> touched cmd k -> reading cmd) ->
  same_on ks (cdb c) (cdb c').
Proof.
  intros R R' Hj Hj' HT HN HS. destruct (reach _ _ _ _ _ R) as [A HM].
  exact (proj1 (fi_rtc T' ks (cdb c) HT x y j A HM (fi_start T' ks (cdb c) x j c HM Hj eq_refl HN) R' HS _ Hj')).
Qed.
Lemma log_since x y i p q cmd r : peers x !! i = Some p -> peers y !! i = Some q -> (cmd, r) ∈ drop (length (log (lnk p))) (log (lnk q)) -> since x y i cmd.
Proof.
  intros Hp Hq Hc. exists p, q. split; [auto|]. split; [auto|]. apply elem_of_list_lookup in Hc as [m Hm]. rewrite lookup_drop in Hm. apply elem_of_list_lookup. exists m. rewrite lookup_drop. unfold handed.
  rewrite lookup_app_l by (rewrite map_length; eapply lookup_lt_Some; eauto). change (map fst (log (lnk q))) with (fst <$> log (lnk q)). rewrite list_lookup_fmap, Hm. reflexivity.
Qed.
Theorem only_read_answered (T T' : Z -> Prop) ks sl ds n x y j c : rtc (happens T) (boot sl ds n) x -> rtc (happens T') x y ->
  wsel x = j -> wcores x !! j = Some c -> lasting T' ks (cdb c) ->
  (forall j i cmd k, performs x j i cmd -> k ∈ ks -> ~ touched cmd k) -> (forall i cmd, since x y i cmd -> (forall k, k ∈ ks -> touched cmd k -> reading cmd) /\ is_select cmd = false) ->
  forall i p q cmd r, peers x !! i = Some p -> peers y !! i = Some q -> (cmd, r) ∈ drop (length (log (lnk p))) (log (lnk q)) -> about ks cmd ->
  runs T' (cdb c) (exec_in_db cmd) (Done r (cdb c)).
Proof.
  intros R R' Hsl Hj HT HN HS. destruct (reach _ _ _ _ _ R) as [A HM]. pose proof (fi_start T' ks (cdb c) x j c HM Hj eq_refl (HN j)) as HX.
  assert (HW : forall j' i cmd, performs x j' i cmd -> about ks cmd -> j' = j) by (intros j' i cmd Hp [[k Hk] HA]; destruct (HN _ _ _ _ Hp (HA _ Hk) Hk)).
  revert HX HT. generalize (cdb c). intros d HX HT. clear HN Hj R c. revert A HM HX HW Hsl HS. induction R' as [x|x z y H R IH]; intros A HM HX HW Hsl HS i p q cmd r Hp Hq Hc Ha.
  { assert (p = q) as -> by congruence. rewrite drop_all in Hc. inversion Hc. }
  pose proof (log_since _ _ _ _ _ _ _ Hp Hq Hc) as Hsi. pose proof (all_peers_step _ _ _ A H) as A'.
  destruct (happens_pmove _ _ _ H) as [L _]. destruct (lookup_lt_is_Some_2 (peers z) i) as [p' Hp']; [rewrite L; eapply lookup_lt_Some; eauto|].
  destruct (log_grows _ _ _ _ _ _ R Hp' Hq) as [rest E].
  assert (NXT : forall cmd r, (cmd, r) ∈ rest -> about ks cmd -> runs T' d (exec_in_db cmd) (Done r d)).
  { intros cmd1 r1 H1 Ha1. apply (IH A' (mi_step _ _ _ HM H)) with (i := i) (p := p') (q := q); auto.
    - apply (fi_step T' ks d HT x z j A HM HX H). intros i1 cmd2 k Hp2. apply (HS i1 cmd2). eapply since_later; [exact H|]. eapply performs_since; eauto.
    - intros j' i1 cmd2 Hp2 Ht. destruct (step_starts _ _ _ _ _ _ A H Hp2) as [Hb|Hb]; [eapply HW; eauto|congruence].
    - destruct (step_sel _ _ _ H) as [Es|(i1 & p1 & cmd2 & B1 & B2 & B3)]; [congruence|]. destruct (HS i1 cmd2) as [_ F]; [|congruence]. eapply exec_since; [exact A| |exact B1|exact B2]. eapply rtc_l; eauto.
    - intros i1 cmd2 Hc2. apply (HS i1 cmd2). eapply since_later; eauto.
    - rewrite E, drop_app_alt by reflexivity. exact H1. }
  destruct (step_log _ _ _ _ _ _ H Hp Hp') as [E'|(cmd1 & r1 & E' & HA)]; rewrite E, E' in Hc.
  - rewrite drop_app_alt in Hc by reflexivity. auto.
  - rewrite <- app_assoc, drop_app_alt in Hc by reflexivity. apply elem_of_cons in Hc as [[= -> ->]|Hc]; [|auto].
    destruct HA as [HA|(j1 & c1 & b & HP & Hj1 & Ht1)]; [destruct (HS _ _ Hsi); congruence|]. pose proof (HW _ _ _ HP Ha) as ->.
    destruct (HX _ Hj1) as [_ H2]. destruct (H2 _ _ _ HP Ht1) as [_ HG]. destruct (HG Ha) as [_ G]. apply G. constructor.
Qed.
End Whole.
