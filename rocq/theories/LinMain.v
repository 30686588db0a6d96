(** Linearizability of the atomic commands. *)
From Verif Require Export LinClock.

Section Main.
Context {P : Setup}.
Lemma turn0_turn (T : Z -> Prop) K lim : (exists t, T t) -> (forall t, T t -> t <= lim) -> forall z z', rtc (turn0 T) z z' ->
  alive K lim (data_of z.1) ->
  (forall i acc todo, z.2 !! i = Some (acc, todo) -> Forall (fun cmd => one_step cmd /\ far_deadlines T lim cmd /\ (forall k, k ∈ key_args cmd -> K k)) todo) ->
  rtc (turn T) z z'.
Proof.
  intros HT HL z z'. induction 1 as [z|z z1 z' Hs _ IH]; intros Ha HF; [apply rtc_refl|].
  inversion Hs as [d cl i acc cmd rest r d' Hi Hr]; subst. cbn in Ha, HF. pose proof (HF _ _ _ Hi) as HF'. inversion HF' as [|? ? (H1 & H2 & H3) HF2]; subst.
  destruct (once_runs T K lim true _ (once_ok T lim HL K cmd H1 H2 H3) _ _ Ha Hr) as (_ & Hn & Hd). destruct (Hn HT) as (now & Htn & R).
  eapply rtc_l; [econstructor; eauto|]. apply IH; [eapply Hd; reflexivity|]. cbn. intros j acc' todo Hj.
  destruct (decide (j = i)) as [->|]; [|rewrite list_lookup_insert_ne in Hj by auto; eapply HF; eauto].
  rewrite list_lookup_insert in Hj by (eapply lookup_lt_Some; eauto). injection Hj as <- <-. exact HF2.
Qed.
Lemma linearizable (T : Z -> Prop) lim d cs c rss : (exists t, T t) -> (forall t, T t -> t <= lim) ->
  each one_step cs -> each (far_deadlines T lim) cs -> (forall key t, names cs key -> exps d !! key = Some t -> lim <= t) ->
  rtc (cstep T) (clients d cs) c -> map tcode (ths c) = map Ret rss ->
  exists D, rtc (turn T) (d, before cs) (D, served rss) /\ dict D = dict (cdb c) /\ exps D = exps (cdb c).
Proof.
  intros [t0 Ht0] HT H1 H2 Ha R Hr.
  assert (Hk : no_keys cs) by (intros cmds cmd Hx Hy; apply (H1 _ _ Hx Hy)).
  assert (Hall : all_returned c).
  { intros i t Hi. assert (E : map tcode (ths c) !! i = Some (tcode t)) by (rewrite list_lookup_fmap, Hi; auto).
    rewrite Hr in E. apply list_lookup_fmap_inv in E as (rs & E & _). exists rs. auto. }
  pose proof (clients_serial T d cs c Hk R Hall) as RA. rewrite Hr in RA.
  assert (HL : LI T (names cs) lim (data_of d, map client cs) (d, before cs)).
  { apply li_start; [exact Ha|]. apply Forall_forall. intros cmds Hc. apply elem_of_list_In in Hc. apply Forall_forall. intros cmd Hd. apply elem_of_list_In in Hd.
    apply lin_cmd_ok; [exact HT|eapply H1; eauto|eapply H2; eauto|]. intros k Hk'. exists cmds, cmd. auto. }
  destruct (li_steps T (names cs) t0 lim Ht0 _ _ RA _ HL) as ([D cl] & R1 & L1). exists D. split.
  - apply (turn0_turn T (names cs) lim); auto; [eauto|etransitivity; [exact R1|eapply li_finish; eauto]|].
    cbn. intros i acc todo Hi. apply list_lookup_fmap_inv in Hi as (cmds & E & Hi). injection E as -> ->.
    apply elem_of_list_lookup_2 in Hi. apply Forall_forall. intros cmd Hd. apply elem_of_list_In in Hd.
    split; [eapply H1; eauto|]. split; [eapply H2; eauto|]. intros k Hk'. exists cmds, cmd. auto.
  - pose proof (li_data _ _ _ _ _ L1) as E. cbn in E. unfold data_of in E. injection E as E1 E2. auto.
Qed.

(** An execution reads finitely many times. *)
Lemma prim_weaken {A} (T T' : Z -> Prop) d (p : prog A) d' p' : (forall t, T t -> T' t) -> prim T d p d' p' -> prim T' d p d' p'.
Proof. intros H Hp. destruct Hp; constructor; auto. Qed.
Lemma cstep_weaken {A} (T T' : Z -> Prop) (c c' : conf A) : (forall t, T t -> T' t) -> cstep T c c' -> cstep T' c c'.
Proof. intros H Hs. destruct Hs; try (econstructor; eauto; fail). econstructor; eauto. eapply prim_weaken; eauto. Qed.
Lemma prim_bounded {A} (T : Z -> Prop) d (p : prog A) d' p' : prim T d p d' p' -> exists lim, prim (fun t => T t /\ t <= lim) d p d' p'.
Proof. intros Hp. destruct Hp; try (exists 0; constructor; auto; fail). exists t. constructor. split; auto. lia. Qed.
Lemma rtc_bounded {A} (T : Z -> Prop) (c c' : conf A) : rtc (cstep T) c c' -> exists lim, rtc (cstep (fun t => T t /\ t <= lim)) c c'.
Proof.
  induction 1 as [c|c c1 c' Hs _ (lim & IH)]; [exists 0; apply rtc_refl|].
  assert (H1 : exists lim, cstep (fun t => T t /\ t <= lim) c c1).
  { destruct Hs; try (exists 0; econstructor; eauto; fail). destruct (prim_bounded _ _ _ _ _ H0) as (l & Hp). exists l. econstructor; eauto. }
  destruct H1 as (l1 & H1). exists (Z.max l1 lim). eapply rtc_l.
  - eapply cstep_weaken; [|exact H1]. cbn. intros t [? ?]. split; auto. lia.
  - clear -IH. induction IH; [apply rtc_refl|eapply rtc_l; eauto]. eapply cstep_weaken; [|eassumption]. cbn. intros t [? ?]. split; auto. lia.
Qed.
End Main.

Lemma each_Forall (Q : command -> Prop) cs : Forall (Forall Q) cs -> each Q cs.
Proof.
  intros H cmds cmd H1 H2. apply elem_of_list_lookup in H1 as (i & H1). eapply Forall_lookup_1 in H; [|exact H1].
  apply elem_of_list_lookup in H2 as (j & H2). eapply Forall_lookup_1 in H; [|exact H2]. auto.
Qed.
(** For concrete commands. *)
Definition one_step_b (cmd : command) : bool :=
  negb (cmd_is "keys" cmd) && negb (cmd_is "setnx" cmd) &&
  (negb (cmd_is "del" cmd || cmd_is "exists" cmd || cmd_is "mget" cmd) || bool_decide (length cmd <= 2)%nat).
Lemma one_step_ok cs : forallb (forallb one_step_b) cs = true -> each one_step cs.
Proof.
  intros H. apply each_Forall. apply Forall_forall. intros cmds Hc. rewrite forallb_forall in H. specialize (H _ Hc). apply Forall_forall. intros cmd Hd.
  rewrite forallb_forall in H. specialize (H _ Hd). unfold one_step_b in H. rewrite !andb_true_iff, !negb_true_iff, orb_true_iff, negb_true_iff, !orb_false_iff in H.
  destruct H as [[H1 H2] H3]. split; auto. split; auto. intros Hx. destruct H3 as [[[? ?] ?]|H3]; [intuition congruence|]. apply bool_decide_eq_true in H3. auto.
Qed.
Definition no_deadline_b (cmd : command) : bool := negb (cmd_is "expire" cmd || cmd_is "setex" cmd || (cmd_is "set" cmd && existsb (fun o => bool_decide (to_lower (str o) = B "ex") || bool_decide (to_lower (str o) = B "px")) (drop 3 cmd))).
Lemma no_deadline_ok {P : Setup} T lim cs : forallb (forallb no_deadline_b) cs = true -> each (far_deadlines T lim) cs.
Proof.
  intros H. apply each_Forall. apply Forall_forall. intros cmds Hc. rewrite forallb_forall in H. specialize (H _ Hc). apply Forall_forall. intros cmd Hd.
  rewrite forallb_forall in H. specialize (H _ Hd). unfold no_deadline_b in H. rewrite negb_true_iff, !orb_false_iff, andb_false_iff in H.
  destruct H as [[H1 H2] H3]. split; [intuition congruence|]. intros Hs i o Hi Ho. destruct H3 as [H3|H3]; [congruence|]. 
  assert (Hn : bool_decide (to_lower (str o) = B "ex") || bool_decide (to_lower (str o) = B "px") = false).
  { apply not_true_iff_false. intros E. apply not_true_iff_false in H3. apply H3. apply existsb_exists. exists o. split; auto.
    apply elem_of_list_In. apply elem_of_list_lookup_2 with (i := (i - 3)%nat). rewrite lookup_drop. rewrite <- Ho. f_equal. lia. }
  apply orb_false_iff in Hn as [H4%bool_decide_eq_false H5%bool_decide_eq_false]. split; intros; congruence.
Qed.
Definition deadlines_b {P : Setup} (lim : Z) (d : db) (cs : list (list command)) : bool :=
  forallb (forallb (fun cmd => forallb (fun k => match exps d !! k with Some t => lim <=? t | None => true end) (key_args cmd))) cs.
Lemma deadlines_ok {P : Setup} lim d cs : deadlines_b lim d cs = true -> forall key t, names cs key -> exps d !! key = Some t -> lim <= t.
Proof.
  unfold deadlines_b. intros H key t (cmds & cmd & H1 & H2 & H3) E. rewrite forallb_forall in H. apply elem_of_list_In in H1, H2, H3. specialize (H _ H1).
  rewrite forallb_forall in H. specialize (H _ H2). rewrite forallb_forall in H. specialize (H _ H3). rewrite E in H. lia.
Qed.
(** Checking [far_deadlines] for a clock that stands still. *)
Definition far_b (now lim : Z) (v : val) : bool := match atoi (str v) with Some n => lim <=? wrap64 (now + n) | None => true end.
Definition far_ms_b (now lim : Z) (v : val) : bool := match atoi (str v) with Some n => lim <=? wrap64 (now + Z.quot n 1000) | None => true end.
Fixpoint opts_far_b (now lim : Z) (l : list val) : bool :=
  match l with
  | o :: l' => match l' with
      | v :: _ => (negb (bool_decide (to_lower (str o) = B "ex")) || bool_decide (is_Some (atoi (str v))) && far_b now lim v) &&
                  (negb (bool_decide (to_lower (str o) = B "px")) || far_ms_b now lim v)
      | [] => true
      end && opts_far_b now lim l'
  | [] => true
  end.
Definition far_deadlines_b {P : Setup} (now lim : Z) (cmd : command) : bool :=
  (negb (cmd_is "expire" cmd || cmd_is "setex" cmd) || match cmd !! 2%nat with Some v => far_b now lim v | None => true end) &&
  (negb (cmd_is "set" cmd) || opts_far_b now lim (drop 3 cmd)).
Lemma far_b_ok now lim v : far_b now lim v = true -> far (eq now) lim v.
Proof. unfold far_b, far. intros H n t E <-. rewrite E in H. lia. Qed.
Lemma far_ms_b_ok now lim v : far_ms_b now lim v = true -> far_ms (eq now) lim v.
Proof. unfold far_ms_b, far_ms. intros H n t E <-. rewrite E in H. lia. Qed.
Lemma opts_far_b_ok now lim l : opts_far_b now lim l = true -> forall i o v, l !! i = Some o -> l !! S i = Some v ->
  (to_lower (str o) = B "ex" -> is_Some (atoi (str v)) /\ far (eq now) lim v) /\ (to_lower (str o) = B "px" -> far_ms (eq now) lim v).
Proof.
  induction l as [|x l IH]; [discriminate|]. intros H [|i] o v Ho Hv; cbn [opts_far_b] in H; apply andb_true_iff in H as [H1 H2]; [|eauto].
  cbn in Ho. injection Ho as ->. destruct l as [|y l]; [discriminate|]. cbn in Hv. injection Hv as ->. apply andb_true_iff in H1 as [H1 H3]. split; intros E.
  - rewrite bool_decide_eq_true_2 in H1 by exact E. cbn in H1. apply andb_true_iff in H1 as [H1 H4]. split; [exact (bool_decide_eq_true_1 _ H1)|apply far_b_ok; exact H4].
  - rewrite (bool_decide_eq_true_2 _ E) in H3. cbn in H3. apply far_ms_b_ok. exact H3.
Qed.
Lemma far_deadlines_ok {P : Setup} now lim cs : forallb (forallb (far_deadlines_b now lim)) cs = true -> each (far_deadlines (eq now) lim) cs.
Proof.
  intros H. apply each_Forall. apply Forall_forall. intros cmds Hc. rewrite forallb_forall in H. specialize (H _ Hc). apply Forall_forall. intros cmd Hd.
  rewrite forallb_forall in H. specialize (H _ Hd). apply andb_true_iff in H as [H1 H2]. split.
  - intros Hn v Hv. rewrite Hv in H1. apply far_b_ok. destruct Hn as [Hn|Hn]; rewrite Hn in H1; [exact H1|]. rewrite orb_true_r in H1. exact H1.
  - intros Hn i o Hi Ho. rewrite Hn in H2. cbn in H2. pose proof (opts_far_b_ok _ _ _ H2 (i - 3)%nat o) as Hx. rewrite !lookup_drop in Hx.
    replace (3 + (i - 3))%nat with i in Hx by lia. replace (3 + S (i - 3))%nat with (S i) in Hx by lia.
    split; intros E v Hv; apply (Hx v Ho Hv); exact E.
Qed.
