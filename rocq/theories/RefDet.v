(** The reference determines replies and states. *)
From Verif Require Export RefAll.

Lemma same_eq S S1 S2 : same S S1 -> same S S2 -> forall k, S1 k = S2 k.
Proof. intros H1 H2 k. rewrite H1, H2. auto. Qed.
Lemma upd_eq S S1 S2 k e : upd S S1 k e -> upd S S2 k e -> forall k', S1 k' = S2 k'.
Proof. intros [H1 H2] [H3 H4] k'. destruct (decide (k' = k)) as [->|Hk]; [congruence|]. rewrite H2, H4; auto. Qed.

Section WithParams.
Context {P : Setup}.
(** Whether GETRANGE is meant. *)
Section Det.
Context (G : Prop).
Definition det (m : meaning) : Prop := forall now S gone r1 S1 r2 S2, (G -> addressable S) ->
  m now S gone r1 S1 -> m now S gone r2 S2 -> r1 = r2 /\ forall k, S1 k = S2 k.
Definition detf (F : Z -> entry -> rdata -> entry -> Prop) : Prop := forall now e r1 e1 r2 e2,
  (G -> forall s dl, e = Some (VStr (Some s), dl) -> zlen s <= max_int) -> F now e r1 e1 -> F now e r2 e2 -> r1 = r2 /\ e1 = e2.

Lemma det_say r0 : det (say r0).
Proof. intros now S gone r1 S1 r2 S2 _ [-> H1] [-> H2]. eauto using same_eq. Qed.
Lemma det_on k F : detf F -> det (on k F).
Proof.
  intros HF now S gone r1 S1 r2 S2 Ha (e1 & H1 & U1) (e2 & H2 & U2).
  destruct (HF now (S (str k)) r1 e1 r2 e2) as [-> ->]; auto. { intros g s dl E. eapply Ha; eauto. }
  split; auto. eapply upd_eq; eauto.
Qed.
Lemma det_onf k f : det (onf k f).
Proof. apply (det_on k (fun now e r e' => (r, e') = f now e)). intros now e r1 e1 r2 e2 _ H1 H2. split; congruence. Qed.
Lemma det_gone k r0 m : det m -> det (if_gone k r0 m).
Proof. intros Hm now S gone r1 S1 r2 S2 Ha. unfold if_gone. destruct (gone (str k)); [apply det_say|apply Hm]; auto. Qed.
Lemma det_int a m : (forall i, det (m i)) -> det (int a m).
Proof. intros Hm. unfold int, int_or. destruct (atoi (str a)); [apply Hm|apply det_say]. Qed.
Lemma det_ints a b m : (forall i j, det (m i j)) -> det (both_ints a b m).
Proof. intros Hm. apply det_int. intros i. apply det_int. auto. Qed.

Lemma det_hash_reads (r0 : rdata) (f : gmap bytes val -> rdata -> Prop) : (forall h r1 r2, f h r1 -> f h r2 -> r1 = r2) -> detf (hash_reads r0 f).
Proof. intros Hf now e r1 e1 r2 e2 _ [-> H1] [-> H2]. split; auto. destruct e as [[[] ?]|]; eauto; congruence. Qed.

(** ** Numbers *)
Lemma dec_ge ds : forall a, Forall is_digit ds -> 0 <= a -> a <= fold_left (fun a c => 10 * a + digit_value c) ds a.
Proof.
  induction ds as [|c ds IH]; intros a Hd Ha; cbn [fold_left]; [lia|]. apply Forall_cons_1 in Hd as [Hc Hd].
  assert (0 <= digit_value c) by (unfold digit_value, is_digit in *; lia). etransitivity; [|apply IH; auto; lia]. lia.
Qed.
Lemma decimal_app ds es : Forall is_digit ds -> Forall is_digit es -> decimal ds <= decimal (ds ++ es).
Proof. intros Hd He. unfold decimal. rewrite fold_left_app. apply dec_ge; auto. apply (decimal_nonneg ds); auto. Qed.
Lemma plus_not_digit : ~ is_digit "+"%char.
Proof. unfold is_digit. vm_compute. intuition congruence. Qed.
Lemma minus_not_digit : ~ is_digit "-"%char.
Proof. unfold is_digit. vm_compute. intuition congruence. Qed.
Lemma digits_stop (c : ascii) s ds rest : ~ is_digit c -> Forall is_digit ds -> c :: s = ds ++ rest -> ds = [].
Proof. intros Hc Hd E. destruct ds as [|x ds]; auto. injection E as -> _. apply Forall_cons_1 in Hd as [? _]. contradiction. Qed.
Lemma digits_prefix s ds rest : Forall is_digit s -> s = ds ++ rest -> Forall is_digit ds -> decimal ds <= decimal s.
Proof. intros Hs -> Hd. apply decimal_app; auto. apply Forall_app in Hs as [_ ?]; auto. Qed.
Lemma no_digits_small ds : ds = [] -> ~ 2 ^ 64 <= decimal ds /\ ~ 2 ^ 63 <= decimal ds.
Proof. intros ->. split; intros H; vm_compute in H; congruence. Qed.
Lemma number_not_high s z : denotes s z -> fits64 z -> ~ too_high s.
Proof.
  intros (ds0 & Hne & Hd0 & Hs) Hf (ds & rest & Hsg & Hb). unfold fits64 in Hf.
  assert (Hlo : 2 ^ 63 <= decimal ds) by lia. clear Hb.
  assert (Hd : Forall is_digit ds) by (destruct Hsg as [[_ ?]|[_ ?]]; auto).
  pose proof (no_digits_small ds) as Hnil. pose proof (decimal_nonneg ds0 Hd0).
  destruct Hs as [[[ -> | -> ] ->]|[-> ->]]; destruct Hsg as [[E _]|[E _]].
  - cbn [app] in E. pose proof (digits_prefix ds0 ds rest Hd0 E Hd). lia.
  - destruct ds0; [discriminate|]. injection E as -> _. apply Forall_cons_1 in Hd0 as [X _]. exact (plus_not_digit X).
  - cbn [app] in E. apply (digits_stop "+") in E; auto using plus_not_digit. apply Hnil in E. lia.
  - injection E as E. pose proof (digits_prefix ds0 ds rest Hd0 E Hd). lia.
  - cbn [app] in E. apply (digits_stop "-") in E; auto using minus_not_digit. apply Hnil in E. lia.
  - discriminate E.
Qed.
Lemma number_not_low s z : denotes s z -> fits64 z -> ~ too_low s.
Proof.
  intros (ds0 & Hne & Hd0 & Hs) Hf (ds & rest & [E Hd] & Hb). unfold fits64 in Hf.
  assert (Hlo : 2 ^ 63 < decimal ds) by lia. clear Hb. pose proof (decimal_nonneg ds0 Hd0).
  destruct Hs as [[[ -> | -> ] ->]|[-> ->]].
  - destruct ds0; [discriminate|]. injection E as -> _. apply Forall_cons_1 in Hd0 as [X _]. exact (minus_not_digit X).
  - discriminate E.
  - injection E as E. pose proof (digits_prefix ds0 ds rest Hd0 E Hd). lia.
Qed.
Lemma high_not_low s : too_high s -> ~ too_low s.
Proof.
  intros (ds & rest & Hs & Hb) (ds' & rest' & [-> _] & _).
  destruct Hs as [[E Hd]|[E _]]; [|discriminate E]. cbn [app] in E. apply (digits_stop "-") in E; auto using minus_not_digit.
  apply no_digits_small in E. lia.
Qed.
Lemma denotes_fun s z z' : denotes s z -> denotes s z' -> z = z'.
Proof.
  intros (ds & Hne & Hd & Hs) (ds' & Hne' & Hd' & Hs').
  assert (Hp : forall c t, Forall is_digit t -> ~ is_digit c -> forall u, t <> c :: u) by (intros c t Ht Hc u ->; apply Forall_cons_1 in Ht as [? _]; auto).
  pose proof (fun t H => Hp "+"%char t H plus_not_digit) as Hpl. pose proof (fun t H => Hp "-"%char t H minus_not_digit) as Hmi. clear Hp.
  destruct Hs as [[[ -> | -> ] ->]|[-> ->]], Hs' as [[[E|E] ->]|[E ->]]; cbn in E; try discriminate E; try (injection E as E); subst; auto;
    exfalso; first [eapply Hpl; [|reflexivity]; eassumption|eapply Hmi; [|reflexivity]; eassumption].
Qed.
Lemma seconds_fun s n n' : seconds s n -> seconds s n' -> n = n'.
Proof.
  intros H1 H2. destruct H1 as [s z Hz Hf|s Hh|s Hl|s Hj Hh Hl]; inversion H2 as [s' z' Hz' Hf'|s' Hh'|s' Hl'|s' Hj' Hh' Hl']; subst; try reflexivity; try contradiction.
  - exact (denotes_fun _ _ _ Hz Hz').
  - destruct (number_not_high _ _ Hz Hf Hh').
  - destruct (number_not_low _ _ Hz Hf Hl').
  - destruct (Hj' _ Hz).
  - destruct (number_not_high _ _ Hz' Hf' Hh).
  - destruct (high_not_low _ Hh Hl').
  - destruct (number_not_low _ _ Hz' Hf' Hl).
  - destruct (high_not_low _ Hh' Hl).
  - destruct (Hj _ Hz').
Qed.

(** ** Options *)
Ltac clash := exfalso; match goal with
  | H : named ?w ?s, H' : named ?w ?s' |- _ => unfold named in H, H'; rewrite H in H'; discriminate H'
  | H : named ?w _, H' : forall s, In s _ -> ~ named ?w s |- _ => eapply H'; [|exact H]; cbn [In]; tauto
  | H : named ?w _, H' : ~ named ?w _ |- _ => exact (H' H)
  end.
Lemma reads_set_fun l os e : reads_set l os e -> forall os' e', reads_set l os' e' -> os = os' /\ e = e'.
Proof.
  induction 1; intros os' e' H'; inversion H'; subst; clear H';
    repeat match goal with H : _ \/ _ |- _ => destruct H end; try clash; try congruence; auto.
  all: try (match goal with IH : forall _ _, reads_set ?l _ _ -> _, H : reads_set ?l _ _ |- _ => destruct (IH _ _ H) as [-> ->] end).
  all: try (split; congruence).
  split; auto. repeat f_equal. eapply seconds_fun; eauto.
Qed.
Lemma reads_lpos_fun l os e : reads_lpos l os e -> forall os' e', reads_lpos l os' e' -> os = os' /\ e = e'.
Proof.
  induction 1; intros os' e' H'; inversion H'; subst; clear H'; auto.
  all: repeat match goal with o : lposopt |- _ => destruct o end.
  all: repeat match goal with H : _ /\ _ |- _ => destruct H | H : _ \/ _ |- _ => destruct H end; try clash.
  all: try (match goal with IH : forall _ _, reads_lpos ?l _ _ -> _, H : reads_lpos ?l _ _ |- _ => destruct (IH _ _ H) as [-> ->] end).
  all: try (split; congruence).
  all: exfalso; repeat match goal with H : atoi _ = Some _, H' : atoi _ = Some _ |- _ => rewrite H in H'; injection H' as ? end; subst; try lia; congruence.
Qed.

(** ** Entries *)
Lemma deadline_fun os now old n1 n2 : setopts_ok os -> set_deadline os now old n1 -> set_deadline os now old n2 -> n1 = n2.
Proof.
  intros _ (A1 & A2 & A3 & A4) (B1 & B2 & B3 & B4). destruct (List.filter is_expiry_opt os) as [|o fs] eqn:E; [rewrite A4, B4; auto|].
  assert (Ho : o ∈ os /\ is_expiry_opt o = true).
  { rewrite elem_of_list_In. apply filter_In. rewrite E. left; auto. }
  destruct Ho as [Ho Hi]. destruct o; try discriminate Hi.
  - rewrite (A1 _ Ho), (B1 _ Ho). auto.
  - rewrite (A2 _ Ho), (B2 _ Ho). auto.
  - rewrite (A3 Ho), (B3 Ho). auto.
Qed.
Lemma det_set os v : setopts_ok os -> detf (set_spec os v).
Proof.
  intros Ho now e r1 e1 r2 e2 _. unfold set_spec. destruct e as [[[s|h|l|s] dl]|].
  - intros (d1 & -> & D1 & ->) (d2 & -> & D2 & ->). rewrite (deadline_fun _ _ _ _ _ Ho D1 D2). auto.
  - intros [-> ->] [-> ->]; auto.
  - intros [-> ->] [-> ->]; auto.
  - intros [-> ->] [-> ->]; auto.
  - destruct (decide (OXx ∈ os)); [intros [-> ->] [-> ->]; auto|].
    intros (d1 & -> & D1 & ->) (d2 & -> & D2 & ->). rewrite (deadline_fun _ _ _ _ _ Ho D1 D2). auto.
Qed.
Lemma det_getrange i j : G -> detf (ref_getrange_at i j).
Proof.
  intros HG now e r1 e1 r2 e2 Hz [-> H1] [-> H2]. split; auto. destruct e as [[[[s|]|h|l|s] dl]|]; try congruence.
  rewrite H1, H2; eauto.
Qed.
Lemma det_hset ps reply : detf (hset_spec ps reply).
Proof.
  intros now e r1 e1 r2 e2 _. unfold hset_spec. cbv zeta.
  assert (Hc : forall (h : gmap bytes val) (dl : option Z),
    (exists h', e1 = Some (VHash h', dl) /\ (forall f, h' !! f = match last_val ps f with Some v => Some v | None => h !! f end) /\ r1 = reply (Z.of_nat (size h') - Z.of_nat (size h))) ->
    (exists h', e2 = Some (VHash h', dl) /\ (forall f, h' !! f = match last_val ps f with Some v => Some v | None => h !! f end) /\ r2 = reply (Z.of_nat (size h') - Z.of_nat (size h))) ->
    r1 = r2 /\ e1 = e2).
  { intros h dl (h1 & -> & E1 & ->) (h2 & -> & E2 & ->). assert (h1 = h2) as ->; auto. apply map_eq. intros f. rewrite E1, E2. auto. }
  destruct e as [[[s|h|l|s] dl]|]; try (intros [-> ->] [-> ->]; auto; fail); apply Hc.
Qed.
Lemma det_hdel fs : detf (hdel_spec fs).
Proof.
  intros now e r1 e1 r2 e2 _. unfold hdel_spec. destruct e as [[[s|h|l|s] dl]|]; try (intros [-> ->] [-> ->]; auto; fail).
  intros (h1 & E1 & -> & ->) (h2 & E2 & -> & ->). assert (h1 = h2) as ->; auto. apply map_eq. intros f. rewrite E1, E2. auto.
Qed.
Lemma at_end_fun b x l x' l' : at_end b x l = at_end b x' l' -> x = x' /\ l = l'.
Proof. destruct b; cbn; [intros [= -> ->]; auto|]. intros E. apply app_inj_tail in E as [-> ->]. auto. Qed.
Lemma det_pop b : detf (pop_spec b).
Proof.
  intros now e r1 e1 r2 e2 _. unfold pop_spec. destruct e as [[[s|h|l|s] dl]|]; try (intros [-> ->] [-> ->]; auto; fail).
  intros [(El & -> & ->)|(x1 & l1 & El & -> & ->)] [(El' & -> & ->)|(x2 & l2 & El' & -> & ->)]; auto.
  - exfalso. rewrite El in El'. destruct b, l2; discriminate.
  - exfalso. rewrite El' in El. destruct b, l1; discriminate.
  - rewrite El in El'. apply at_end_fun in El' as [-> ->]. auto.
Qed.
Lemma det_popn b c : detf (popn_spec b c).
Proof.
  intros now e r1 e1 r2 e2 _. unfold popn_spec. destruct e as [[[s|h|l|s] dl]|]; try (intros [-> ->] [-> ->]; auto; fail).
  intros (o1 & l1 & E1 & Z1 & -> & ->) (o2 & l2 & E2 & Z2 & -> & ->).
  assert (length o1 = length o2) by (unfold zlen in *; lia). destruct b; rewrite E1 in E2.
  - apply app_inj_1 in E2 as [-> ->]; auto.
  - apply app_inj_2 in E2 as [-> E2]; [|rewrite !rev_length; auto]. apply (f_equal (@rev val)) in E2. rewrite !rev_involutive in E2. subst; auto.
Qed.
Lemma det_lset i v : detf (lset_spec i v).
Proof.
  intros now e r1 e1 r2 e2 _. unfold lset_spec. destruct e as [[[s|h|l|s] dl]|]; try (intros [-> ->] [-> ->]; auto; fail).
  destruct (at_index l i); [|intros [-> ->] [-> ->]; auto].
  intros (-> & l1 & -> & _ & E1) (-> & l2 & -> & _ & E2). split; auto. repeat f_equal. apply list_eq. intros j. rewrite E1, E2. auto.
Qed.
Lemma count_app v l1 l2 : count_matches v (l1 ++ l2) = count_matches v l1 + count_matches v l2.
Proof. unfold count_matches, zlen. rewrite filter_app, app_length. lia. Qed.
Lemma without_none v l : count_matches v l = 0 -> without v l = l.
Proof.
  unfold count_matches, without. induction l as [|x l IH]; cbn; auto. destruct (matches v x); cbn; [unfold zlen; cbn [length]; lia|].
  intros H. rewrite IH; auto.
Qed.
Lemma without_app v l1 l2 : without v (l1 ++ l2) = without v l1 ++ without v l2.
Proof. apply filter_app. Qed.
Lemma split_either (l1 l2 m1 m2 : list val) : l1 ++ l2 = m1 ++ m2 -> (exists k, m1 = l1 ++ k /\ l2 = k ++ m2) \/ (exists k, l1 = m1 ++ k /\ m2 = k ++ l2).
Proof. intros H. apply app_eq_app in H as (k & [[-> ->]|[-> ->]]); eauto. Qed.
Lemma lrem_fun c v l l1 l2 : lrem_result c v l l1 -> lrem_result c v l l2 -> l1 = l2.
Proof.
  unfold lrem_result. destruct (c =? 0); [congruence|]. intros (a1 & b1 & E1 & H1) (a2 & b2 & E2 & H2). rewrite E1 in E2.
  apply split_either in E2.
  destruct (0 <? c); destruct H1 as [-> C1], H2 as [-> C2]; destruct E2 as [(k & -> & ->)|(k & -> & ->)]; rewrite ?count_app in *;
    rewrite ?without_app, ?(without_none v k) by lia; rewrite ?app_assoc; auto.
Qed.
Lemma det_lrem c v : detf (ref_lrem c v).
Proof.
  intros now e r1 e1 r2 e2 _. unfold ref_lrem. destruct (c =? min_int); [intros H1 H2; split; congruence|].
  unfold lrem_spec. destruct e as [[[s|h|l|s] dl]|]; try (intros [-> ->] [-> ->]; auto; fail).
  intros (l1 & R1 & -> & ->) (l2 & R2 & -> & ->). rewrite (lrem_fun _ _ _ _ _ R1 R2). auto.
Qed.

(** ** Several keys *)
Lemma det_del ks : det (plain (del_spec ks)).
Proof.
  intros now S gone r1 S1 r2 S2 _ (-> & A1 & A2) (-> & B1 & B2). split; auto. intros k.
  destruct (decide (k ∈ ks)); [rewrite A1, B1|rewrite A2, B2]; auto.
Qed.
Lemma det_exists ks : det (plain (exists_spec ks)).
Proof. intros now S gone r1 S1 r2 S2 _ [-> A] [-> C]. eauto using same_eq. Qed.
Lemma det_rename a b : det (plain (rename_spec a b)).
Proof.
  intros now S gone r1 S1 r2 S2 _. unfold plain, rename_spec. destruct (S a) as [e|]; [|intros [-> ?] [-> ?]; eauto using same_eq].
  intros (-> & A1 & A2 & A3) (-> & B1 & B2 & B3). split; auto. intros k.
  destruct (decide (k = b)) as [->|Hb]; [congruence|]. destruct (decide (k = a)) as [->|Ha]; [rewrite A2, B2; auto|]. rewrite A3, B3; auto.
Qed.
Lemma det_mget ks : det (ref_mget ks).
Proof. intros now S gone r1 S1 r2 S2 _ [-> A] [-> C]. eauto using same_eq. Qed.
Lemma last_of (ps : list (val * val)) k : k ∈ map (fun p => str p.1) ps ->
  exists l1 k' v l2, ps = l1 ++ (k', v) :: l2 /\ str k' = k /\ str k' ∉ map (fun p => str p.1) l2.
Proof.
  induction ps as [|[k0 v0] ps IH]; cbn [map]; [intros H; inversion H|]. intros H.
  destruct (decide (k ∈ map (fun p => str p.1) ps)) as [Hin|Hin].
  - destruct (IH Hin) as (l1 & k' & v & l2 & -> & H1 & H2). exists ((k0, v0) :: l1), k', v, l2. auto.
  - apply elem_of_cons in H as [->|H]; [|contradiction]. exists [], k0, v0, ps. auto.
Qed.
Lemma det_mset ps : det (plain (mset_spec ps)).
Proof.
  intros now S gone r1 S1 r2 S2 _ (-> & A1 & A2) (-> & B1 & B2). split; auto. intros k.
  destruct (decide (k ∈ map (fun p => str p.1) ps)) as [Hin|Hin]; [|rewrite A2, B2; auto].
  destruct (last_of ps k Hin) as (l1 & k' & v & l2 & E & <- & Hl). rewrite (A1 _ _ _ _ E Hl), (B1 _ _ _ _ E Hl). auto.
Qed.
Lemma det_lmove a b fl tl : det (plain (ref_lmove_at a b fl tl)).
Proof.
  intros now S gone r1 S1 r2 S2 _. unfold plain, ref_lmove_at, lmove_spec.
  assert (Hs : forall r0, r1 = r0 /\ same S S1 -> r2 = r0 /\ same S S2 -> r1 = r2 /\ forall k, S1 k = S2 k) by (intros r0 [-> ?] [-> ?]; eauto using same_eq).
  assert (Hu : forall r0 k e, r1 = r0 /\ upd S S1 k e -> r2 = r0 /\ upd S S2 k e -> r1 = r2 /\ forall k, S1 k = S2 k) by (intros r0 k e [-> ?] [-> ?]; split; auto; eapply upd_eq; eauto).
  assert (Hm : forall l da eb,
    (exists x l', l = at_end fl x l' /\ r1 = RBulk x /\
            if decide (a = b) then upd S S1 a (Some (VList (at_end tl x l'), da))
            else S1 a = keep_list l' da /\ S1 b = eb x /\ forall k, k <> a -> k <> b -> S1 k = S k) ->
    (exists x l', l = at_end fl x l' /\ r2 = RBulk x /\
            if decide (a = b) then upd S S2 a (Some (VList (at_end tl x l'), da))
            else S2 a = keep_list l' da /\ S2 b = eb x /\ forall k, k <> a -> k <> b -> S2 k = S k) -> r1 = r2 /\ forall k, S1 k = S2 k).
  { intros l da eb (x1 & l1 & E1 & -> & H1) (x2 & l2 & E2 & -> & H2). rewrite E1 in E2. apply at_end_fun in E2 as [<- <-]. split; auto.
    destruct (decide (a = b)); [eapply upd_eq; eauto|]. destruct H1 as (A1 & A2 & A3), H2 as (B1 & B2 & B3). intros k.
    destruct (decide (k = a)) as [->|]; [congruence|]. destruct (decide (k = b)) as [->|]; [congruence|]. rewrite A3, B3; auto. }
  destruct (S a) as [[[s|h|l|s] da]|] eqn:Ea; try apply Hs.
  all: destruct (S b) as [[[s'|h'|l'|s'] db]|] eqn:Eb; try apply Hs; try apply Hu.
  - apply (Hm l da (fun x => Some (VList (at_end tl x l'), db))).
  - apply (Hm l da (fun x => Some (VList [x], None))).
Qed.
Lemma det_smove a b x : det (plain (ref_smove_at a b x)).
Proof.
  intros now S gone r1 S1 r2 S2 _. unfold plain, ref_smove_at.
  assert (Hs : forall r0, r1 = r0 /\ same S S1 -> r2 = r0 /\ same S S2 -> r1 = r2 /\ forall k, S1 k = S2 k) by (intros r0 [-> ?] [-> ?]; eauto using same_eq).
  assert (Hu : forall r0 k e, r1 = r0 /\ upd S S1 k e -> r2 = r0 /\ upd S S2 k e -> r1 = r2 /\ forall k, S1 k = S2 k) by (intros r0 k e [-> ?] [-> ?]; split; auto; eapply upd_eq; eauto).
  destruct (S a) as [[[s|h|l|s] da]|]; try apply Hs. destruct (S b) as [[[s'|h'|l'|s'] db]|]; try apply Hs; try apply Hu.
  destruct (decide (x ∈ s)); [|apply Hu]. destruct (decide (a = b)); [apply Hs|].
  intros (-> & A1 & A2 & A3) (-> & B1 & B2 & B3). split; auto. intros k.
  destruct (decide (k = a)) as [->|]; [congruence|]. destruct (decide (k = b)) as [->|]; [congruence|]. rewrite A3, B3; auto.
Qed.
Lemma det_store op args : det (ref_store op args).
Proof.
  intros now S gone r1 S1 r2 S2 Ha. unfold ref_store. destruct args as [|dst [|k ks]]; try (apply det_say; auto; fail).
  destruct (map str _) as [|k' ks']; [apply det_say; auto|]. unfold ref_store_at.
  destruct (operand (S k')); [|intros [-> ?] [-> ?]; eauto using same_eq].
  destruct (mapM _ _); [|intros [-> ?] [-> ?]; split; auto; eapply upd_eq; eauto].
  intros (s1 & E1 & -> & U1) (s2 & E2 & -> & U2). assert (s1 = s2) as -> by (apply leibniz_equiv; intros y; rewrite E1, E2; auto).
  split; auto. eapply upd_eq; eauto.
Qed.
Lemma det_ref_set k v l : det (ref_set k v l).
Proof.
  intros now S gone r1 S1 r2 S2 Ha (o1 & e1 & R1 & H1) (o2 & e2 & R2 & H2). destruct (reads_set_fun _ _ _ R1 _ _ R2) as [<- <-].
  destruct e1 as [r0|]; [eapply det_say; eauto|].
  destruct H1 as [[K1 H1]|[K1 H1]], H2 as [[K2 H2]|[K2 H2]]; try contradiction; [|eapply det_say; eauto].
  eapply (det_on k _ (det_set o1 v K1)); eauto.
Qed.
Lemma det_lpos k v l : det (ref_lpos k v l).
Proof.
  intros now S gone r1 S1 r2 S2 Ha. unfold ref_lpos. destruct (Nat.odd (length l)); [apply det_say; auto|].
  apply det_gone; auto. clear. intros now S gone r1 S1 r2 S2 Ha (o1 & e1 & R1 & H1) (o2 & e2 & R2 & H2).
  destruct (reads_lpos_fun _ _ _ R1 _ _ R2) as [<- <-]. destruct e1 as [r0|]; [eapply det_say; eauto|eapply det_onf; eauto].
Qed.
Lemma det_expire k a w : det (ref_expire k a w).
Proof. apply det_int. intros i. destruct (List.find _ _); [apply det_onf|apply det_gone, det_say]. Qed.

Ltac det1 := first
  [ apply det_say | apply det_onf | apply det_gone | apply det_ints; intros | apply det_int; intros | apply det_del | apply det_exists | apply det_rename
  | apply det_mget | apply det_mset | apply det_lmove | apply det_smove | apply det_store | apply det_ref_set | apply det_lpos | apply det_expire
  | apply det_on; first [apply det_getrange; match goal with H : _ -> G |- _ => exact (H eq_refl) end | apply det_hset | apply det_hdel | apply det_pop | apply det_popn | apply det_lset | apply det_lrem
                        | apply det_hash_reads; congruence]
  | match goal with |- det (match ?x with _ => _ end) => destruct x end
  | match goal with |- det (if ?x then _ else _) => destruct x end
  | progress unfold ref_persist, all_of, ref_pop, hset_args, hash_of, field_of
  | match goal with |- det (?f _) => progress cbv beta end ].
Lemma reference_det : Forall (fun p => In (fst p) any_order \/ ((fst p = "getrange"%string -> G) -> forall args, det (snd p args))) reference.
Proof.
  unfold reference. repeat match goal with |- Forall _ (_ :: _) => constructor | |- Forall _ [] => constructor end; cbn [fst snd];
    first [left; unfold any_order; cbn [In]; tauto | right; intros HG args; repeat det1].
Qed.
End Det.

Lemma one_meaning s s' m m' n : In (s, m) reference -> In (s', m') reference -> named n s -> named n s' -> s = s' /\ m = m'.
Proof.
  intros H1 H2 N1 N2. assert (E : s = s').
  { pose proof (named_same n s s' N1 N2) as E. apply (f_equal string_of_list_ascii) in E. unfold B in E. rewrite !string_of_list_ascii_of_string in E. auto. }
  subst s'. split; auto. assert (Hd : List.NoDup (map fst reference)) by (apply NoDup_ListNoDup; refine (bool_decide_eq_true_1 _ _); vm_compute; reflexivity).
  revert H1 H2 Hd. generalize reference. clear. induction l as [|[a b] l IH]; cbn [In map fst]; [intros []|].
  intros [E|H1] [E'|H2] Hd; apply NoDup_cons_iff in Hd as [Hn Hd]; auto.
  - congruence.
  - exfalso. apply Hn. injection E as -> _. apply in_map_iff. exists (s, m'). auto.
  - exfalso. apply Hn. injection E' as -> _. apply in_map_iff. exists (s, m). auto.
Qed.
Theorem ref_determined0 (G : Prop) now M n args r1 M1 r2 M2 : (named n "getrange" -> G) -> (G -> addressable (fun k => live now (M k))) -> (forall s, In s any_order -> ~ named n s) ->
  ref_step now M (n :: args) r1 M1 -> ref_step now M (n :: args) r2 M2 -> r1 = r2 /\ forall k, live now (M1 k) = live now (M2 k).
Proof.
  intros Hg Ha Hno (S1 & A1 & K1) (S2 & A2 & K2).
  assert (H : r1 = r2 /\ forall k, S1 k = S2 k).
  { destruct A1 as [(s & m & Hin & Hn & H1)|[N1 H1]], A2 as [(s' & m' & Hin' & Hn' & H2)|[N2 H2]].
    - destruct (one_meaning _ _ _ _ _ Hin Hin' Hn Hn') as [-> ->].
      destruct (proj1 (List.Forall_forall _ _) (reference_det G) _ Hin') as [Ho|Hd]; [destruct (Hno _ Ho Hn)|]. cbn [fst snd] in Hd.
      refine (Hd _ args _ _ _ _ _ _ _ Ha H1 H2). intros ->. auto.
    - destruct (N2 _ _ Hin Hn).
    - destruct (N1 _ _ Hin' Hn').
    - exact (det_say G _ _ _ _ _ _ _ _ Ha H1 H2). }
  destruct H as [-> HS]. split; auto. intros k. destruct (K1 k) as [-> _], (K2 k) as [-> _]. rewrite HS. auto.
Qed.
Theorem ref_determined now M n args r1 M1 r2 M2 : addressable (fun k => live now (M k)) -> (forall s, In s any_order -> ~ named n s) ->
  ref_step now M (n :: args) r1 M1 -> ref_step now M (n :: args) r2 M2 -> r1 = r2 /\ forall k, live now (M1 k) = live now (M2 k).
Proof. intros Ha. apply (ref_determined0 True); auto. Qed.
Lemma reference_table s : (exists m, In (s, m) reference) <-> (exists a, In (s, a) arity_table).
Proof. split; intros [x H]; [exact (names_reference _ _ H)|exact (reference_names _ _ H)]. Qed.
Lemma ref_answered now d cmd : Inv d -> ~ panics now d cmd -> ~ loops_forever now d cmd -> exists r d', step now d cmd (Done r d').
Proof.
  intros HI Hp Hl. pose proof (run_runs now d (exec_in_db cmd)) as Hr. pose proof (ref_exact now d cmd _ HI Hr) as H.
  destruct (run now d (exec_in_db cmd)) as [r d'|d'|d']; [exists r, d'; exact Hr|contradiction|contradiction].
Qed.
End WithParams.
