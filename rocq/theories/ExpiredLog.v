(** Expired keys beside other commands: what the clients are answered. *)
From Verif Require Export ExpiredMain.

Section WithParams.
Context {P : Setup}.
Lemma missing_if k cmd r : (touched cmd k -> as_missing k cmd r) -> as_missing k cmd r.
Proof.
  intros H n key args s a E1 E2 Hi Hn. refine (H _ n key args s a E1 E2 Hi Hn). subst cmd. left. subst k. unfold key_args. unfold named in Hn. rewrite Hn. revert Hi. clear. unfold absent_replies. cbn [In].
  intros Hi. repeat (destruct Hi as [[= <- <-]|Hi]; [match goal with |- context [keykind_of ?x] => let r := eval vm_compute in (keykind_of x) in change (keykind_of x) with r end; cbn; left|]). destruct Hi.
Qed.
Lemma missing_select k cmd r : is_select cmd = true -> as_missing k cmd r.
Proof.
  intros H n key args s a -> <- Hi Hn. exfalso. unfold is_select in H. unfold named in Hn. rewrite Hn in H. revert Hi H. clear. unfold absent_replies. cbn [In].
  intros Hi. repeat (destruct Hi as [[= <- <-]|Hi]; [vm_compute; discriminate|]). destruct Hi.
Qed.
Lemma exec_since T x y i p cmd : all_peers x -> rtc (happens T) x y -> peers x !! i = Some p -> hnd (lnk p) = HExec cmd -> since x y i cmd.
Proof.
  intros A R Hp Hh. destruct (handed_rtc _ _ _ A R _ _ Hp) as (q & r & Hq & E). exists p, q. split; [auto|]. split; [auto|].
  rewrite E. unfold handed at 1. rewrite Hh, <- app_assoc, drop_app_alt by (rewrite map_length; reflexivity). left.
Qed.
(** One step: who selects, who starts, who is answered. *)
Lemma step_sel T x z : happens T x z -> wsel z = wsel x \/ exists i p cmd, peers x !! i = Some p /\ hnd (lnk p) = HExec cmd /\ is_select cmd = true.
Proof. intros [H|H]; destruct H; cbn; auto. right. exists i. eexists. exists cmd. split; [eassumption|]. split; assumption. Qed.
Lemma step_starts T x z j i cmd : all_peers x -> happens T x z -> performs z j i cmd -> performs x j i cmd \/ j = wsel x.
Proof.
  intros A [H|H]; destruct H; intros Hp; try (left; exact Hp); try (left; revert Hp; eapply perf_back; [eassumption|left; reflexivity]); try (left; revert Hp; eapply perf_back; [eassumption|right; reflexivity]).
  - left. revert Hp. eapply perf_back; [eassumption|left]. unfold busy_of. cbn. erewrite (busy_client l l') by eassumption. reflexivity.
  - left. revert Hp. eapply perf_back; [eassumption|left]. unfold busy_of. cbn. destruct o as [j1|]; [|reflexivity].
    destruct (pv_run _ (A _ _ H) _ eq_refl) as (cmd1 & E & _). cbn in E. rewrite E. erewrite busy_link by eassumption. reflexivity.
  - destruct Hp as (q & Hq & Hh & Hr). cbn in Hq. destruct (decide (i0 = i)) as [->|Hn].
    + rewrite list_lookup_insert in Hq by (eapply lookup_lt_Some; eauto). injection Hq as <-. cbn in Hr. injection Hr as <-. right. reflexivity.
    + rewrite list_lookup_insert_ne in Hq by auto. left. exists q. auto.
Qed.
Definition answers (x : world) (i : nat) (cmd : command) (r : rdata) : Prop :=
  is_select cmd = true \/ exists j c b, performs x j i cmd /\ wcores x !! j = Some c /\ ths c !! i = Some (mkT (Ret r) b).
Lemma step_log T x z i p q : happens T x z -> peers x !! i = Some p -> peers z !! i = Some q ->
  log (lnk q) = log (lnk p) \/ exists cmd r, log (lnk q) = log (lnk p) ++ [(cmd, r)] /\ answers x i cmd r.
Proof.
  assert (L : forall (ps : list peer) i0 (p0 p1 : peer), ps !! i0 = Some p0 -> ps !! i = Some p -> <[i0 := p1]> ps !! i = Some q -> p = q \/ i0 = i /\ p = p0 /\ q = p1).
  { intros ps i0 p0 p1 H0 Hp Hq. destruct (decide (i0 = i)) as [->|Hn]; [|rewrite list_lookup_insert_ne in Hq by auto; left; congruence].
    rewrite list_lookup_insert in Hq by (eapply lookup_lt_Some; eauto). right. split; [auto|]. split; congruence. }
  intros [H|H]; destruct H; cbn; intros Hp Hq; try (left; congruence);
    match goal with H0 : ?ps !! ?i0 = Some _, Hq : <[?i0 := _]> ?ps !! i = Some q |- _ => destruct (L _ _ _ _ H0 Hp Hq) as [->|(-> & -> & ->)]; [left; reflexivity|]; cbn; try (left; reflexivity) end.
  - left. inversion H1; subst; reflexivity.
  - left. assumption.
  - right. eexists _, _. split; [reflexivity|]. left. assumption.
  - right. eexists _, _. split; [reflexivity|]. right. exists j, c, false. split; [eexists; split; [exact H|]; auto|auto].
Qed.
Lemma log_grows T x y i p q : rtc (happens T) x y -> peers x !! i = Some p -> peers y !! i = Some q -> exists rest, log (lnk q) = log (lnk p) ++ rest.
Proof.
  intros R. revert p. induction R as [x|x z y H R IH]; intros p Hp Hq; [exists []; rewrite app_nil_r; congruence|].
  destruct (happens_pmove _ _ _ H) as [L _]. destruct (lookup_lt_is_Some_2 (peers z) i) as [p' Hp']; [rewrite L; eapply lookup_lt_Some; eauto|].
  destruct (IH _ Hp' Hq) as [rest E]. destruct (step_log _ _ _ _ _ _ H Hp Hp') as [E'|(cmd & r & E' & _)]; rewrite E, E'; [eauto|]. rewrite <- app_assoc. eauto.
Qed.
Theorem expired_answered (T T' : Z -> Prop) sl ds n x y j c k t0 : rtc (happens T) (boot sl ds n) x -> rtc (happens T') x y -> (forall now, T' now -> t0 < now) ->
  wsel x = j -> wcores x !! j = Some c -> exps (cdb c) !! k = Some t0 ->
  (forall j i cmd, performs x j i cmd -> ~ touched cmd k) -> (forall i cmd, since x y i cmd -> (touched cmd k -> reading cmd) /\ is_select cmd = false) ->
  forall i p q cmd r, peers x !! i = Some p -> peers y !! i = Some q -> (cmd, r) ∈ drop (length (log (lnk p))) (log (lnk q)) -> as_missing k cmd r.
Proof.
  intros R R' HT Hsl Hj He HN HS. destruct (reach _ _ _ _ _ R) as [A HM]. pose proof (xi_start T' k t0 x j c HM Hj He (HN j)) as HX.
  assert (HW : forall j' i cmd, performs x j' i cmd -> touched cmd k -> j' = j) by (intros j' i cmd Hp Ht; destruct (HN _ _ _ Hp Ht)).
  clear HN He Hj R. revert A HM HX HW Hsl HS. induction R' as [x|x z y H R IH]; intros A HM HX HW Hsl HS i p q cmd r Hp Hq Hc.
  { assert (p = q) as -> by congruence. rewrite drop_all in Hc. inversion Hc. }
  pose proof (all_peers_step _ _ _ A H) as A'.
  destruct (happens_pmove _ _ _ H) as [L _]. destruct (lookup_lt_is_Some_2 (peers z) i) as [p' Hp']; [rewrite L; eapply lookup_lt_Some; eauto|].
  destruct (log_grows _ _ _ _ _ _ R Hp' Hq) as [rest E].
  assert (NXT : forall cmd r, (cmd, r) ∈ rest -> as_missing k cmd r).
  { intros cmd1 r1 H1. apply (IH A' (mi_step _ _ _ HM H)) with (i := i) (p := p') (q := q); auto.
    - apply (xi_step T' k t0 HT x z j A HM HX H). intros i1 cmd2 Hp2. apply (HS i1 cmd2). eapply since_later; [exact H|]. eapply performs_since; eauto.
    - intros j' i1 cmd2 Hp2 Ht. destruct (step_starts _ _ _ _ _ _ A H Hp2) as [Hb|Hb]; [eapply HW; eauto|congruence].
    - destruct (step_sel _ _ _ H) as [Es|(i1 & p1 & cmd2 & B1 & B2 & B3)]; [congruence|]. destruct (HS i1 cmd2) as [_ F]; [|congruence]. eapply exec_since; [exact A| |exact B1|exact B2]. eapply rtc_l; eauto.
    - intros i1 cmd2 Hc2. apply (HS i1 cmd2). eapply since_later; eauto.
    - rewrite E, drop_app_alt by reflexivity. exact H1. }
  destruct (step_log _ _ _ _ _ _ H Hp Hp') as [E'|(cmd1 & r1 & E' & HA)]; rewrite E, E' in Hc.
  - rewrite drop_app_alt in Hc by reflexivity. auto.
  - rewrite <- app_assoc, drop_app_alt in Hc by reflexivity. apply elem_of_cons in Hc as [[= -> ->]|Hc]; [|auto].
    destruct HA as [HA|(j1 & c1 & b & HP & Hj1 & Ht1)]; [apply missing_select; exact HA|]. apply missing_if. intros Ht. pose proof (HW _ _ _ HP Ht) as ->.
    destruct (HX _ Hj1) as [_ H2]. destruct (H2 _ _ _ HP Ht1) as (g & _ & HG). cbn in HG. inversion HG; auto.
Qed.
End WithParams.
