(** Commands whose meaning does not depend on the time, and which give no deadlines. *)
From Verif Require Export ApartProofs RefDet.

Definition undated (S : keyspace) : Prop := forall k v dl, S k = Some (v, dl) -> dl = None.
Definition undate (e : entry) : Prop := forall v dl, e = Some (v, dl) -> dl = None.
Lemma undate_none : undate None. Proof. intros v dl [=]. Qed.
Lemma undate_some v : undate (Some (v, None)). Proof. intros v' dl [= _ <-]. auto. Qed.

Section Timeless.
Context {P : Setup}.
Definition timeless (m : meaning) : Prop :=
  (forall now now' S T gone gone' r S' T', (forall k : bytes, S k = T k) -> (forall k : bytes, gone k = gone' k) -> (forall k : bytes, S' k = T' k) ->
     m now S gone r S' -> m now' T gone' r T') /\
  (forall now S gone r S', undated S -> m now S gone r S' -> undated S').
Definition timelessf (F : Z -> entry -> rdata -> entry -> Prop) : Prop :=
  (forall now now' e r e', F now e r e' -> F now' e r e') /\ (forall now e r e', undate e -> F now e r e' -> undate e').

Lemma same_cong (S T S' T' : keyspace) : (forall k : bytes, S k = T k) -> (forall k : bytes, S' k = T' k) -> same S S' -> same T T'.
Proof. intros H1 H2 H k. rewrite <- H1, <- H2. apply H. Qed.
Lemma upd_cong (S T S' T' : keyspace) k e : (forall k : bytes, S k = T k) -> (forall k : bytes, S' k = T' k) -> upd S S' k e -> upd T T' k e.
Proof. intros H1 H2 [A1 A2]. split; [rewrite <- H2; auto|]. intros k' Hk. rewrite <- H1, <- H2. auto. Qed.
Lemma same_undated S S' : undated S -> same S S' -> undated S'.
Proof. intros H E k v dl Hk. rewrite E in Hk. eauto. Qed.
Lemma upd_undated S S' k e : undated S -> undate e -> upd S S' k e -> undated S'.
Proof. intros H He [A1 A2] k' v dl Hk. destruct (decide (k' = k)) as [->|Hn]; [rewrite A1 in Hk; eauto|rewrite A2 in Hk; eauto]. Qed.

Lemma timeless_say r0 : timeless (say r0).
Proof. split; [intros now now' S T g g' r S' T' H1 _ H2 [-> H]; split; eauto using same_cong|intros now S g r S' H [_ E]; eauto using same_undated]. Qed.
Lemma timeless_on k F : timelessf F -> timeless (on k F).
Proof.
  intros [C1 C2]. split.
  - intros now now' S T g g' r S' T' H1 _ H2 (e & HF & U). exists e. split; [rewrite <- H1; eauto|eauto using upd_cong].
  - intros now S g r S' H (e & HF & U). eapply upd_undated; [exact H| |exact U]. eapply C2; [|exact HF]. intros v dl. apply H.
Qed.
Lemma timeless_onf k f : timelessf (fun now e r e' => (r, e') = f now e) -> timeless (onf k f).
Proof. apply (timeless_on k). Qed.
Lemma timeless_gone k r0 m : timeless m -> timeless (if_gone k r0 m).
Proof.
  intros [C1 C2]. destruct (timeless_say r0) as [D1 D2]. split.
  - intros now now' S T g g' r S' T' H1 Hg H2. unfold if_gone. rewrite Hg. destruct (g' (str k)); eauto.
  - intros now S g r S' H. unfold if_gone. destruct (g (str k)); eauto.
Qed.
Lemma timeless_int a m : (forall i, timeless (m i)) -> timeless (int a m).
Proof. intros Hm. unfold int, int_or. destruct (atoi (str a)); [apply Hm|apply timeless_say]. Qed.
Lemma timeless_ints a b m : (forall i j, timeless (m i j)) -> timeless (both_ints a b m).
Proof. intros Hm. apply timeless_int. intros i. apply timeless_int. auto. Qed.

(** ** Several keys *)
Lemma timeless_del ks : timeless (plain (del_spec ks)).
Proof.
  split.
  - intros now now' S T g g' r S' T' H1 _ H2 (-> & A1 & A2). split; [|split].
    + do 3 f_equal. apply set_eq. intros x. rewrite !elem_of_filter. rewrite H1. auto.
    + intros k Hk. rewrite <- H2. auto.
    + intros k Hk. rewrite <- H1, <- H2. auto.
  - intros now S g r S' H (_ & A1 & A2) k v dl Hk. destruct (decide (k ∈ ks)) as [Hi|Hi]; [rewrite A1 in Hk by auto; discriminate|]. rewrite A2 in Hk by auto. eauto.
Qed.
Lemma filter_cong (S T : keyspace) : (forall k : bytes, S k = T k) -> forall ks : list bytes, filter (fun k => S k <> None) ks = filter (fun k => T k <> None) ks.
Proof. intros H ks. apply list_filter_iff. intros k. rewrite H. auto. Qed.
Lemma timeless_exists ks : timeless (plain (exists_spec ks)).
Proof.
  split.
  - intros now now' S T g g' r S' T' H1 _ H2 [-> A]. split; [|eauto using same_cong]. rewrite (filter_cong S T H1). auto.
  - intros now S g r S' H [_ A]. eauto using same_undated.
Qed.
Lemma timeless_rename a b : timeless (plain (rename_spec a b)).
Proof.
  split.
  - intros now now' S T g g' r S' T' H1 _ H2. unfold plain, rename_spec. rewrite <- H1. destruct (S a) as [e|]; [|intros [-> A]; eauto using same_cong].
    intros (-> & A1 & A2 & A3). split; [auto|]. split; [rewrite <- H2; auto|]. split; [intros; rewrite <- H2; auto|]. intros. rewrite <- H1, <- H2. auto.
  - intros now S g r S' H. unfold plain, rename_spec. destruct (S a) as [[v0 dl0]|] eqn:Ea; [|intros [_ A]; eauto using same_undated].
    intros (_ & A1 & A2 & A3) k v dl Hk. destruct (decide (k = b)) as [->|Hb]; [rewrite A1 in Hk; injection Hk as -> ->; eauto|].
    destruct (decide (k = a)) as [->|Ha]; [rewrite A2 in Hk by auto; discriminate|]. rewrite A3 in Hk by auto. eauto.
Qed.
Lemma kept_cong g g' : (forall k : bytes, g k = g' k) -> forall ks, kept_keys g ks = kept_keys g' ks.
Proof.
  intros H ks. revert g g' H. induction ks as [|k ks IH]; intros g g' H; cbn [kept_keys]; [auto|]. rewrite H. destruct (g' (str k)); [|f_equal; auto].
  apply IH. intros x. rewrite H. auto.
Qed.
Lemma timeless_mget ks : timeless (ref_mget ks).
Proof.
  split.
  - intros now now' S T g g' r S' T' H1 Hg H2 [-> A]. split; [|eauto using same_cong]. rewrite (kept_cong _ _ Hg). do 2 f_equal.
    apply map_ext. intros k. unfold mget_one. rewrite H1. auto.
  - intros now S g r S' H [_ A]. eauto using same_undated.
Qed.
Lemma timeless_mset ps : timeless (plain (mset_spec ps)).
Proof.
  split.
  - intros now now' S T g g' r S' T' H1 _ H2 (-> & A1 & A2). split; [auto|]. split; [intros; rewrite <- H2; eauto|]. intros. rewrite <- H1, <- H2. auto.
  - intros now S g r S' H (_ & A1 & A2) k v dl Hk. destruct (decide (k ∈ map (fun p => str p.1) ps)) as [Hi|Hi]; [|rewrite A2 in Hk by auto; eauto].
    destruct (last_of ps k Hi) as (l1 & k' & v' & l2 & E & <- & Hl). rewrite (A1 _ _ _ _ E Hl) in Hk. congruence.
Qed.
Lemma keep_undate l dl : dl = None -> undate (keep_list l dl).
Proof. intros ->. destruct l; [apply undate_none|apply undate_some]. Qed.
Lemma keep_set_undate s dl : dl = None -> undate (keep_set s dl).
Proof. intros ->. unfold keep_set. destruct (decide _); [apply undate_none|apply undate_some]. Qed.
Lemma three_undated S S' a b ea eb : undated S -> undate ea -> undate eb -> S' a = ea -> S' b = eb -> (forall k, k <> a -> k <> b -> S' k = S k) -> undated S'.
Proof.
  intros H Ha Hb E1 E2 E3 k v dl Hk. destruct (decide (k = a)) as [->|]; [rewrite E1 in Hk; eauto|]. destruct (decide (k = b)) as [->|]; [rewrite E2 in Hk; eauto|].
  rewrite E3 in Hk by auto. eauto.
Qed.
Lemma timeless_lmove a b fl tl : timeless (plain (ref_lmove_at a b fl tl)).
Proof.
  split.
  - intros now now' S T g g' r S' T' H1 _ H2. unfold plain, ref_lmove_at, lmove_spec. rewrite <- !H1.
    destruct (S a) as [[[s|h|l|s] da]|] eqn:Ea; destruct (S b) as [[[s'|h'|l'|s'] db]|] eqn:Eb;
      try (intros [-> A]; split; [auto|eauto using same_cong, upd_cong]).
    all: intros (x & l0 & E & -> & A); exists x, l0; split; [auto|]; split; [auto|]; destruct (decide (a = b)); [eauto using upd_cong|];
      destruct A as (A1 & A2 & A3); rewrite <- !H2; split; [auto|]; split; [auto|]; intros; rewrite <- H1, <- H2; auto.
  - intros now S g r S' H. unfold plain, ref_lmove_at, lmove_spec.
    destruct (S a) as [[[s|h|l|s] da]|] eqn:Ea; destruct (S b) as [[[s'|h'|l'|s'] db]|] eqn:Eb;
      try (intros [-> A]; eapply same_undated; [exact H|exact A]); try (intros [-> A]; eapply upd_undated; [exact H| |exact A]; first [apply undate_some|apply keep_undate; eauto]).
    all: intros (x & l0 & E & -> & A); destruct (decide (a = b)); [eapply upd_undated; [exact H| |exact A]; rewrite (H _ _ _ Ea); apply undate_some|].
    all: destruct A as (A1 & A2 & A3); eapply three_undated; [exact H| | |exact A1|exact A2|exact A3]; [apply keep_undate; eauto|].
    + rewrite (H _ _ _ Eb). apply undate_some.
    + apply undate_some.
Qed.
Lemma timeless_smove a b x : timeless (plain (ref_smove_at a b x)).
Proof.
  split.
  - intros now now' S T g g' r S' T' H1 _ H2. unfold plain, ref_smove_at. rewrite <- !H1.
    destruct (S a) as [[[s|h|l|s] da]|] eqn:Ea; try (intros [-> A]; split; [auto|eauto using same_cong, upd_cong]; fail).
    destruct (S b) as [[[s'|h'|l'|s'] db]|] eqn:Eb; try (intros [-> A]; split; [auto|eauto using same_cong, upd_cong]; fail).
    destruct (decide (x ∈ s)); [|intros [-> A]; split; [auto|eauto using upd_cong]]. intros [-> A]. split; [auto|]. destruct (decide (a = b)); [eauto using same_cong|].
    destruct A as (A1 & A2 & A3); rewrite <- !H2; split; [auto|]; split; [auto|]; intros; rewrite <- H1, <- H2; auto.
  - intros now S g r S' H. unfold plain, ref_smove_at.
    destruct (S a) as [[[s|h|l|s] da]|] eqn:Ea; try (intros [-> A]; eapply same_undated; [exact H|exact A]).
    destruct (S b) as [[[s'|h'|l'|s'] db]|] eqn:Eb; try (intros [-> A]; eapply upd_undated; [exact H| |exact A]; apply keep_set_undate; eauto).
    destruct (decide (x ∈ s)); [|intros [-> A]; eapply upd_undated; [exact H| |exact A]; apply keep_set_undate; eauto].
    intros [_ A]. destruct (decide (a = b)); [eapply same_undated; [exact H|exact A]|].
    destruct A as (A1 & A2 & A3). eapply three_undated; [exact H| | |exact A1|exact A2|exact A3]; [apply keep_set_undate; eauto|]. rewrite (H _ _ _ Eb). apply undate_some.
Qed.
Lemma mapM_cong (S T : keyspace) : (forall k : bytes, S k = T k) -> forall ks : list bytes, mapM (fun k => operand (S k)) ks = mapM (fun k => operand (T k)) ks.
Proof. intros H ks. induction ks as [|k ks IH]; cbn; [auto|]. rewrite H, IH. auto. Qed.
Lemma timeless_store op args : timeless (ref_store op args).
Proof.
  split.
  - intros now now' S T g g' r S' T' H1 Hg H2. unfold ref_store. destruct args as [|dst [|k ks]]; try (apply timeless_say; auto; fail).
    rewrite (kept_cong (fun x => g x && _) (fun x => g' x && negb (bool_decide (x = str dst)))) by (intros x; rewrite Hg; auto).
    destruct (map str _) as [|k' ks']; [apply timeless_say; auto|]. unfold ref_store_at. rewrite (filter_cong S T H1), (mapM_cong S T H1), H1.
    destruct (operand (T k')); [|intros [-> A]; eauto using same_cong]. destruct (mapM _ _); [|intros [-> A]; eauto using upd_cong].
    intros (s1 & E1 & -> & U1). exists s1. eauto using upd_cong.
  - intros now S g r S' H. unfold ref_store. destruct args as [|dst [|k ks]]; try (apply timeless_say; auto; fail).
    destruct (map str _) as [|k' ks']; [apply timeless_say; auto|]. unfold ref_store_at.
    destruct (operand (S k')); [|intros [-> A]; eauto using same_undated]. destruct (mapM _ _); [|intros [-> A]; eapply upd_undated; [exact H| |exact A]; apply undate_some].
    intros (s1 & E1 & -> & U1). eapply upd_undated; [exact H| |exact U1]; apply undate_some.
Qed.
Lemma reads_set_plain l os e : reads_set l os e -> (forall i o, l !! i = Some o -> ~ named o "ex" /\ ~ named o "px") -> forall n, OEx n ∉ os /\ OPx n ∉ os.
Proof.
  induction 1; intros Hl n0; try (split; apply not_elem_of_nil).
  all: try (match goal with Hn : named ?a _, Hl : forall i o, (?a :: _) !! i = Some o -> _ |- _ => destruct (Hl 0%nat a eq_refl) as [X1 X2]; contradiction end).
  all: match goal with IH : _ -> forall n, OEx n ∉ _ /\ _, Hl : forall i o, (_ :: _) !! i = Some o -> _ |- OEx ?m ∉ _ /\ _ =>
    destruct (IH (fun i o => Hl (S i) o) m) as [Y1 Y2]; split; rewrite elem_of_cons; intros [E|E]; auto; discriminate E end.
Qed.
Lemma timeless_set os v : (forall n, OEx n ∉ os /\ OPx n ∉ os) -> timelessf (set_spec os v).
Proof.
  intros Ho.
  assert (D1 : forall now now' old new, set_deadline os now old new -> set_deadline os now' old new).
  { intros now now' old new (A1 & A2 & A3 & A4). split; [intros n Hn; destruct (proj1 (Ho n) Hn)|]. split; [intros n Hn; destruct (proj2 (Ho n) Hn)|]. auto. }
  assert (D2 : forall now new, set_deadline os now None new -> new = None).
  { intros now new (A1 & A2 & A3 & A4). destruct (List.filter is_expiry_opt os) as [|o fs] eqn:E; [auto|].
    assert (Hin : o ∈ os /\ is_expiry_opt o = true) by (rewrite elem_of_list_In; apply filter_In; rewrite E; left; auto). destruct Hin as [Hin Hi].
    destruct o as [| | |n|n|]; try discriminate Hi; [destruct (proj1 (Ho n) Hin)|destruct (proj2 (Ho n) Hin)|auto]. }
  split.
  - intros now now' e r e'. unfold set_spec. destruct e as [[[s|h|l|s] dl]|]; auto.
    + intros (d & -> & H & ->). eauto 10.
    + destruct (decide (OXx ∈ os)); auto. intros (d & -> & H & ->). eauto 10.
  - intros now e r e' Hu. unfold set_spec. destruct e as [[[s|h|l|s] dl]|]; try (intros [-> _]; exact Hu).
    + intros (d & -> & H & ->). rewrite (Hu _ _ eq_refl) in H. rewrite (D2 _ _ H). apply undate_some.
    + destruct (decide (OXx ∈ os)); [intros [-> _]; exact Hu|]. intros (d & -> & H & ->). rewrite (D2 _ _ H). apply undate_some.
Qed.
Lemma timeless_ref_set k v l : (forall i o, l !! i = Some o -> ~ named o "ex" /\ ~ named o "px") -> timeless (ref_set k v l).
Proof.
  intros Hl. split.
  - intros now now' S T g g' r S' T' H1 Hg H2 (os & e & R & H). exists os, e. split; [auto|]. destruct e as [r0|]; [eapply (timeless_say r0); eauto|].
    destruct H as [[K H]|[K H]]; [left|right]; split; auto; [eapply (timeless_on k _ (timeless_set os v (reads_set_plain _ _ _ R Hl))); eauto|eapply (timeless_say err_syntax); eauto].
  - intros now S g r S' Hu (os & e & R & H). destruct e as [r0|]; [eapply (timeless_say r0); eauto|].
    destruct H as [[K H]|[K H]]; [eapply (timeless_on k _ (timeless_set os v (reads_set_plain _ _ _ R Hl))); eauto|eapply (timeless_say err_syntax); eauto].
Qed.
Lemma timelessf_of (f : Z -> entry -> rdata * entry) : (forall now now' e, f now e = f now' e) -> (forall now e, undate e -> undate (snd (f now e))) -> timelessf (fun now e r e' => (r, e') = f now e).
Proof.
  intros H1 H2. split; [intros now now' e r e'; rewrite (H1 now now'); auto|]. intros now e r e' Hu E. specialize (H2 now e Hu). rewrite <- E in H2. exact H2.
Qed.
Ltac undate1 := cbv beta iota; cbn [snd fst];
  first [ apply undate_none | apply undate_some | apply keep_undate; reflexivity | apply keep_set_undate; reflexivity
        | match goal with |- undate (snd ?x) => match x with context [match ?y with _ => _ end] => destruct y end end
        | match goal with |- undate ?x => match x with context [match ?y with _ => _ end] => destruct y end end ].
Ltac entry_case e Hu := destruct e as [[? [dl|]]|]; [exfalso; discriminate (Hu _ _ eq_refl)| |].
Ltac timelessfn := apply timelessf_of; [reflexivity|let now := fresh in let e := fresh "e" in let Hu := fresh in intros now e Hu; entry_case e Hu;
  cbv delta [get_spec ref_setrange_at setnx_spec strlen_spec counter_spec incrbyfloat_spec ref_append hincrby_spec hincr_bad_spec hincrbyfloat_spec hsetnx_spec
    lindex_spec linsert_spec llen_spec lpos_spec push_spec pushx_spec lrange_spec ltrim_spec sadd_spec scard_spec sismember_spec srem_spec type_spec on_str on_list on_set]; repeat undate1].
Ltac parts := repeat match goal with H : _ \/ _ |- _ => destruct H | H : ex _ |- _ => destruct H | H : _ /\ _ |- _ => destruct H end.
Lemma timeless_hash_reads (r0 : rdata) (f : gmap bytes val -> rdata -> Prop) : timelessf (hash_reads r0 f).
Proof. split; [auto|]. intros now e r e' Hu [-> _]. auto. Qed.
Lemma timeless_hset ps reply : timelessf (hset_spec ps reply).
Proof.
  split; [auto|]. intros now e r e' Hu. unfold hset_spec. cbv zeta. entry_case e Hu.
  - destruct v; try (intros [-> ?]; apply undate_some); try (intros [? ->]; apply undate_some). intros (h' & -> & _). apply undate_some.
  - intros (h' & -> & _). apply undate_some.
Qed.
Lemma timeless_hdel fs : timelessf (hdel_spec fs).
Proof. split; [auto|]. intros now e r e' Hu. unfold hdel_spec. entry_case e Hu; [destruct v|]; intros H; parts; subst; repeat undate1. Qed.
Lemma timeless_pop b : timelessf (pop_spec b).
Proof. split; [auto|]. intros now e r e' Hu. unfold pop_spec. entry_case e Hu; [destruct v|]; intros H; parts; subst; repeat undate1. Qed.
Lemma timeless_popn b c : timelessf (popn_spec b c).
Proof. split; [auto|]. intros now e r e' Hu. unfold popn_spec. entry_case e Hu; [destruct v|]; intros H; parts; subst; repeat undate1. Qed.
Lemma timeless_lset i v : timelessf (lset_spec i v).
Proof. split; [auto|]. intros now e r e' Hu. unfold lset_spec. entry_case e Hu; [destruct v0; try destruct (at_index _ _)|]; intros H; parts; subst; repeat undate1. Qed.
Lemma timeless_lrem c v : timelessf (ref_lrem c v).
Proof.
  split; [auto|]. intros now e r e' Hu. unfold ref_lrem, lrem_spec, on_list. entry_case e Hu; destruct (c =? min_int); try (destruct v0); intros H;
    first [injection H as -> ->|parts]; subst; repeat undate1.
Qed.
Lemma timeless_lpos k v l : timeless (ref_lpos k v l).
Proof.
  unfold ref_lpos. destruct (Nat.odd (length l)); [apply timeless_say|]. apply timeless_gone.
  assert (C : forall os, timeless (onf k (lpos_spec v (last_opt rank_of os) (last_opt count_of os) (last_opt maxlen_of os)))) by (intros os; apply timeless_onf; timelessfn).
  split.
  - intros now now' S T g g' r S' T' H1 Hg H2 (os & e & R & H). exists os, e. split; [auto|]. destruct e as [r0|]; [eapply (timeless_say r0); eauto|eapply (C os); eauto].
  - intros now S g r S' Hu (os & e & R & H). destruct e as [r0|]; [eapply (timeless_say r0); eauto|eapply (C os); eauto].
Qed.
Lemma timeless_persist k : timeless (ref_persist k).
Proof. apply timeless_gone, timeless_onf. apply timelessf_of; [reflexivity|]. intros now e Hu. destruct e as [[v dl]|]; [apply undate_some|apply undate_none]. Qed.
Ltac timeless1 := first
  [ apply timeless_say | apply timeless_persist | apply timeless_gone | apply timeless_ints; intros | apply timeless_int; intros | apply timeless_del | apply timeless_exists | apply timeless_rename
  | apply timeless_mget | apply timeless_mset | apply timeless_lmove | apply timeless_smove | apply timeless_store | apply timeless_lpos
  | apply timeless_onf; timelessfn
  | apply timeless_on; first [apply timeless_hset | apply timeless_hdel | apply timeless_pop | apply timeless_popn | apply timeless_lset | apply timeless_lrem | apply timeless_hash_reads]
  | match goal with |- timeless (match ?x with _ => _ end) => destruct x end
  | match goal with |- timeless (if ?x then _ else _) => destruct x end
  | progress unfold all_of, ref_pop, hset_args, hash_of, field_of
  | match goal with |- timeless (?f _) => progress cbv beta end ].
Definition timed : list string := any_order ++ ["getrange"; "expire"; "setex"; "ttl"]%string.
Lemma reference_timeless : Forall (fun p => In (fst p) timed \/ forall args, (fst p = "set"%string -> forall i o, (2 <= i)%nat -> args !! i = Some o -> ~ named o "ex" /\ ~ named o "px") -> timeless (snd p args)) reference.
Proof.
  unfold reference. repeat match goal with |- Forall _ (_ :: _) => constructor | |- Forall _ [] => constructor end; cbn [fst snd];
    first [left; unfold timed, any_order; cbn [In app]; tauto | right; intros args HS].
  all: try (destruct args as [|k [|v l]]; try apply timeless_say; apply timeless_ref_set; intros i o Hi; apply (HS eq_refl (S (S i))); [lia|exact Hi]; fail).
  all: clear HS; repeat timeless1.
Qed.
End Timeless.
