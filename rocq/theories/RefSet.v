(** The reference holds: sets. *)
From Verif Require Export RefList RefHash.

Section WithParams.
Context {P : Setup}.

Lemma sadd_meets n args now d : named n "sadd" -> Inv d -> meets now d (n :: args) (ref_of "sadd" args).
Proof.
  intros Hn HI. open_ref. destruct args as [|k [|f fs]]; try refuse Hn.
  apply meets_plain; [apply (sadd_ok n k (f :: fs)); [auto|discriminate]|auto|nodl Hn].
Qed.
Lemma srem_meets n args now d : named n "srem" -> Inv d -> meets now d (n :: args) (ref_of "srem" args).
Proof.
  intros Hn HI. open_ref. destruct args as [|k [|f fs]]; try refuse Hn.
  apply meets_plain; [apply (srem_ok n k (f :: fs)); [auto|discriminate]|auto|nodl Hn].
Qed.
Lemma scard_meets n args now d : named n "scard" -> Inv d -> meets now d (n :: args) (ref_of "scard" args).
Proof.
  intros Hn HI. open_ref. destruct args as [|k [|f fs]]; try refuse Hn.
  apply meets_plain; [apply scard_ok; auto|auto|nodl Hn].
Qed.
Lemma sismember_meets n args now d : named n "sismember" -> Inv d -> meets now d (n :: args) (ref_of "sismember" args).
Proof.
  intros Hn HI. open_ref. destruct args as [|k [|f [|? ?]]]; try refuse Hn.
  apply meets_plain; [apply sismember_ok; auto|auto|nodl Hn].
Qed.
Lemma smembers_meets n args now d : named n "smembers" -> Inv d -> meets now d (n :: args) (ref_of "smembers" args).
Proof.
  intros Hn HI. open_ref. destruct args as [|k [|f fs]]; try refuse Hn.
  apply meets_plain; [apply smembers_ok; auto|auto|nodl Hn].
Qed.
Lemma spop_meets n args now d : named n "spop" -> Inv d -> meets now d (n :: args) (ref_of "spop" args).
Proof.
  intros Hn HI. open_ref. destruct args as [|k [|a [|? ?]]]; try refuse Hn.
  { apply meets_plain; [apply spop_ok; auto|auto|nodl Hn]. }
  apply meets_gone; auto; intros He.
  { apply meets_say. exec_cmd Hn. apply purge_gone; auto. }
  unfold int, int_or. destruct (atoi (str a)) as [c|] eqn:Ea.
  - destruct (Z.ltb_spec 0 c) as [Hc|Hc].
    + apply meets_plain; [apply spopn_ok; auto|auto|nodl Hn].
    + apply meets_say. exec_cmd Hn. unfold spop_set. apply purge_live; auto. rewrite Ea, (proj2 (Z.leb_le c 0)) by lia. split; auto using sim_refl.
  - apply meets_say. exec_cmd Hn. unfold spop_set. apply purge_live; auto. rewrite Ea. split; auto using sim_refl.
Qed.
Lemma srandmember_meets n args now d : named n "srandmember" -> Inv d -> meets now d (n :: args) (ref_of "srandmember" args).
Proof.
  intros Hn HI. open_ref. destruct args as [|k [|a [|? ?]]]; try refuse Hn.
  { apply (meets_impl (fun now d => set_nonempty (str k) now (view now d)) now d [n; k] (single (str k) srandmember_spec)).
    - exact (srandmember_ok n k Hn).
    - auto.
    - nodl Hn.
    - intros Hnp dl Hv. apply Hnp. unfold panics. do 7 right. left. split; [exact Hn|].
      exists k, [], ∅, dl. repeat split; auto.
    - intros r S' H. exact H. }
  apply meets_gone; auto; intros He.
  { apply meets_say. exec_cmd Hn. apply purge_gone; auto. }
  unfold int, int_or. destruct (atoi (str a)) as [c|] eqn:Ea.
  - destruct (Z.eqb_spec c 0) as [->|Hc].
    + apply meets_say. exec_cmd Hn. unfold srandmember_set. apply purge_live; auto. rewrite Ea. split; auto using sim_refl.
    + apply meets_on. exec_cmd Hn. unfold srandmember_set. apply purge_live; auto. rewrite Ea, (proj2 (Z.eqb_neq c 0)) by auto.
      unfold srandmember_run, ref_srandmember. rewrite wp_lock_bare, wp_dict_get, view_notexpired by auto.
      pose proof (raw_dict d (str k) _ eq_refl) as HD.
      destruct (raw d (str k)) as [[[s|h|l|s] dl]|] eqn:Er; rewrite HD; cbn [wp oks]; rewrite ?Er; auto.
      destruct (make_ok _ _); [|exact I].
      apply random_draws; [lia|apply NoDup_elements|apply atoi_range in Ea; lia|]. intros l Hl. cbn [wp oks]. rewrite Er. split; auto. split; auto.
      exists l. auto.
  - apply meets_say. exec_cmd Hn. unfold srandmember_set. apply purge_live; auto. rewrite Ea. split; auto using sim_refl.
Qed.

(** ** SMOVE *)
Lemma smove_meets n args now d : named n "smove" -> Inv d -> meets now d (n :: args) (ref_of "smove" args).
Proof.
  intros Hn HI. open_ref. destruct args as [|a [|b [|m [|? ?]]]]; try refuse Hn.
  apply meets_gone; auto; intros Hea.
  { apply meets_say. exec_cmd Hn. apply purge_gone; auto. }
  apply meets_gone; auto; intros Heb.
  { apply meets_say. exec_cmd Hn. apply purge_live; auto. apply purge_gone; auto. }
  apply meets_multi; [auto|nodl Hn|]. exec_cmd Hn. unfold smove_set. cbv zeta. apply purge_live; auto. apply purge_live; auto.
  set (A := str a) in *. set (Bk := str b) in *. set (x := str m). unfold plain, ref_smove_at.
  assert (Hra : raw d A = view now d A) by (rewrite view_notexpired; auto).
  assert (Hrb : raw d Bk = view now d Bk) by (rewrite view_notexpired; auto).
  assert (Hsame : same (view now d) (view now d)) by (intros k; auto).
  pose proof (raw_dict _ _ _ Hra) as HDa. pose proof (raw_exps _ _ _ HI Hra) as HEa.
  pose proof (raw_dict _ _ _ Hrb) as HDb. pose proof (raw_exps _ _ _ HI Hrb) as HEb.
  destruct (view now d A) as [[va da]|] eqn:Hva.
  2: { wps. split; auto. }
  destruct va as [s|h|l|s].
  1,2,3: wps; split; auto.
  assert (Hun : forall d', raw d' A = keep_set s da -> (forall k', k' <> A -> raw d' k' = raw d k') ->
     upd (view now d) (view now d') A (keep_set s da)).
  { intros d' Hr' Hf'. split; [rewrite view_raw, Hr'; eapply live_keep_set; eauto|].
    intros k Hk. rewrite view_raw, Hf', <- view_raw by auto. auto. }
  wps. destruct (view now d Bk) as [[vb db0]|] eqn:Hvb.
  2:{ wps. eapply sdrop_wp2; [assumption|eassumption|]. intros d' HI' Hr' Hf'. wps. split; auto. }
  destruct vb as [s'|h'|l'|t].
  1,2,3: wps; (eapply sdrop_wp2; [assumption|eassumption|]); intros d' HI' Hr' Hf'; wps; split; auto.
  wps. destruct (decide (x ∈ s)) as [Hx|Hx].
  2:{ rewrite bool_decide_eq_false_2 by auto. wps.
      eapply sdrop_wp2; [assumption|eassumption|]. intros d' HI' Hr' Hf'. wps. split; auto. }
  rewrite bool_decide_eq_true_2 by auto. rewrite set_rem_snd. wps.
  destruct (decide (A = Bk)) as [E|E].
  - clear HDb HEb Hrb. rewrite <- E. rewrite <- E, Hva in Hvb. injection Hvb as <- <-. dbsimp. wps. rewrite set_add_snd.
    wps. replace (s ∖ {[x]} ∪ {[x]}) with s.
    2:{ apply leibniz_equiv. intros y. destruct (decide (y = x)); set_solver. }
    eapply sdrop_wp2; [auto with inv|rawsimp; reflexivity|].
    intros d' HI' Hr' Hf'. wps. split; auto.
    unfold keep_set in Hr'. rewrite decide_False in Hr' by set_solver.
    intros k. destruct (decide (k = A)) as [->|Hk].
    + rewrite view_raw, Hr', Hva. eapply live_as; eauto.
    + rewrite view_raw, Hf' by auto. rawsimp. rewrite <- view_raw. auto.
  - assert (E' : Bk <> A) by auto. dbsimp. wps. rewrite set_add_snd. wps.
    eapply sdrop_wp2; [auto with inv|rawsimp; reflexivity|].
    intros d' HI' Hr' Hf'. wps. split; auto.
    split; [|split].
    + rewrite view_raw, Hr'. eapply live_keep_set; eauto.
    + rewrite view_raw, Hf' by auto. rawsimp. eapply live_as; eauto.
    + intros k Hka Hkb. rewrite view_raw, Hf' by auto. rawsimp. rewrite <- view_raw. auto.
Qed.

(** ** Set algebra *)
Lemma live_keys_kept now ks : forall d acc (f : list bytes -> prog rdata) Q, Inv d ->
  (forall d', Inv d' -> sim now d' d -> (forall k, k ∈ ks -> raw d' (str k) = view now d (str k)) ->
     wp (eq now) d' (f (acc ++ map str (kept_keys (fun x => lingers now (raw d x)) ks))) Q) ->
  wp (eq now) d (pbind (live_keys ks acc) f) Q.
Proof.
  induction ks as [|k ks IH]; intros d acc f Q HI H.
  - cbn [kept_keys map] in H. specialize (H d HI (sim_refl _ _)). rewrite app_nil_r in H. apply H. intros k Hk. inversion Hk.
  - cbn [live_keys kept_keys] in *. rewrite lingers_expired in H by auto. rewrite pbind_assoc, wp_purge. destruct (expired now d (str k)) eqn:Ee.
    + apply IH; auto with inv. intros d' HI' Hs Hv.
      assert (Hs' : sim now d' d) by (eapply sim_trans; eauto using sim_purge).
      erewrite kept_keys_ext; [apply H; auto|intros x; apply lingers_purge].
      intros k' Hk'. assert (Hvv : forall y, view now d' y = view now d y) by (intros; apply (sim_view now); auto; lia).
      apply elem_of_cons in Hk' as [->|Hk'].
      * destruct (Hs (str k)) as [E|[E _]]; rewrite E; rewrite (view_expired now) by auto; auto. rawsimp. auto.
      * rewrite Hv by auto. apply (sim_view now); auto using sim_purge; lia.
    + apply IH; auto. intros d' HI' Hs Hv. rewrite <- app_assoc. apply H; auto.
      intros k' [->|Hk']%elem_of_cons; auto.
      destruct (Hs (str k)) as [E|[E E2]]; rewrite E; [rewrite view_notexpired; auto|auto].
Qed.
Lemma kept_in g ks x : x ∈ kept_keys g ks -> x ∈ ks.
Proof.
  revert g. induction ks as [|k ks IH]; intros g; cbn [kept_keys]; auto. destruct (g (str k)); intros H.
  - right. eapply IH; eauto.
  - apply elem_of_cons in H as [->|H]; [left|right; eapply IH; eauto].
Qed.
Lemma kept_raw now d d' ks g : (forall k, k ∈ ks -> raw d' (str k) = view now d (str k)) ->
  forall y, y ∈ map str (kept_keys g ks) -> raw d' y = view now d y.
Proof. intros H y Hy. apply elem_of_list_In, in_map_iff in Hy as (z & <- & Hz). apply H. eapply kept_in, elem_of_list_In; eauto. Qed.
Lemma opnd_raw now d d' y : raw d' y = view now d y -> opnd d' y = operand (view now d y).
Proof. intros <-. unfold opnd, raw. destruct (dict d' !! y) as [[]|]; auto. Qed.

Lemma setop_meets op n args now d : named n (setop_word op) -> Inv d -> meets now d (n :: args) (ref_setop op args).
Proof.
  intros Hn HI.
  assert (Hx : exec_in_db (n :: args) = setop_set op (n :: args)).
  { destruct op; cbn [setop_word] in Hn; erewrite (exec_named _ _ _ _ Hn) by reflexivity; reflexivity. }
  assert (Hsn : sets_no_deadline (n :: args)) by (destruct op; nodl Hn).
  destruct args as [|k ks]; [apply meets_say; rewrite Hx; split; auto using sim_refl|].
  apply meets_multi; auto. rewrite Hx. unfold setop_set, ref_setop. apply live_keys_kept; auto. intros d' HI' Hs Hr. cbn [app].
  remember (k :: ks) as l eqn:El. clear El k ks Hx Hsn.
  pose proof (kept_raw now d d' l (fun x => lingers now (raw d x)) Hr) as Hk. clear Hr.
  rewrite wp_mlock_bare. destruct (map str (kept_keys _ l)) as [|k ks]; [exact I|].
  assert (Hsame : same (view now d) (view now d')) by (intros y; apply (sim_view now); auto; lia).
  unfold setop_spec. rewrite <- (opnd_raw now d d' k) by (apply Hk; left).
  replace (mapM (fun k => operand (view now d k)) ks) with (mapM (opnd d') ks)
    by (apply mapM_ext'; intros y Hy; apply opnd_raw, Hk; right; auto).
  assert (Hgo : forall s, wp (eq now) d'
      (sets <- read_sets [∅] ks [] ;;
       match sets with
       | inr _ => Ret err_wrong_kind
       | inl sets => Range (elements (set_op op s sets)) (fun o => Ret (rarr_nilable (rbulks o)))
       end) (oks (fun r d'' => same (view now d) (view now d'') /\
         match mapM (opnd d') ks with
         | Some ss => exists s', (forall x, x ∈ s' <-> in_result op x s ss) /\ lists_set s' r
         | None => r = err_wrong_kind end))).
  { intros s. apply read_sets_wp. rewrite (mapM_single (opnd d')).
    2:{ intros y _. unfold opnd. destruct (dict d' !! y) as [[]|]; auto. }
    destruct (mapM (opnd d') ks) as [ss|].
    - rewrite concat_single. cbn [app wp]. intros o Ho. split; auto.
      exists (set_op op s ss). split; [intros; apply set_op_spec|]. apply range_lists; auto.
    - split; auto. }
  rewrite wp_dict_get. unfold opnd at 1. destruct (dict d' !! k) as [[]|] eqn:E; try apply Hgo; split; auto.
Qed.

(** The STORE variants. *)
Lemma read_present now d d' ks : (forall y, y ∈ ks -> raw d' y = view now d y) ->
  match mapM (fun k => match dict d' !! k with None => Some [] | Some (VSet s) => Some [s] | Some _ => None end) ks with
  | Some l => Some (concat l) | None => None end =
  mapM (fun k => operand (view now d k)) (filter (fun k => view now d k <> None) ks).
Proof.
  induction ks as [|y ks IH]; intros H; [reflexivity|]. specialize (IH ltac:(intros; apply H; right; auto)).
  specialize (H y ltac:(left)). rewrite filter_cons. cbn [mapM]. rewrite <- !H.
  pose proof (raw_dict d' y _ eq_refl) as HD.
  destruct (mapM _ ks) as [l|].
  all: destruct (raw d' y) as [[[s|h|l'|s] dl]|] eqn:Er; rewrite HD; cbn.
  all: try (rewrite decide_True by discriminate); try (rewrite decide_False by (intros X; apply X; reflexivity)).
  all: cbn [mapM]; rewrite <- ?IH, <- ?H; cbn; auto.
Qed.
Lemma store_meets op n args now d : named n (setopstore_word op) -> Inv d -> meets now d (n :: args) (ref_store op args).
Proof.
  intros Hn HI.
  assert (Hx : exec_in_db (n :: args) = setopstore_set op (n :: args)).
  { destruct op; cbn [setopstore_word] in Hn; erewrite (exec_named _ _ _ _ Hn) by reflexivity; reflexivity. }
  assert (Hsn : sets_no_deadline (n :: args)) by (destruct op; nodl Hn).
  destruct args as [|dst [|k0 ks0]]; [apply meets_say; rewrite Hx; split; auto using sim_refl..|].
  apply meets_multi; auto. rewrite Hx. unfold setopstore_set, ref_store. cbv zeta.
  apply wp_purge_sim; auto. intros d0 b HI0 Hs0 He0 Hr0 _ Hf0. apply live_keys_kept; auto. intros d' HI' Hs Hr. cbn [app].
  remember (k0 :: ks0) as l eqn:El. clear El k0 ks0 Hx Hsn.
  assert (Hg : forall x, lingers now (raw d0 x) = lingers now (raw d x) && negb (bool_decide (x = str dst))).
  { intros x. destruct (decide (x = str dst)) as [->|Hne].
    - rewrite bool_decide_eq_true_2, andb_false_r by auto. rewrite lingers_expired by auto. auto.
    - rewrite bool_decide_eq_false_2, andb_true_r by auto. rewrite Hf0; auto. }
  rewrite (kept_keys_ext _ _ l Hg). clear Hg.
  assert (Hv0 : forall y, view now d0 y = view now d y) by (intros; apply (sim_view now); auto; lia).
  assert (Hsame : same (view now d) (view now d')).
  { intros y. rewrite <- Hv0. apply (sim_view now); auto; lia. }
  assert (Hr' : forall k, k ∈ l -> raw d' (str k) = view now d (str k)) by (intros; rewrite Hr; auto). clear Hr.
  pose proof (kept_raw now d d' l (fun x => lingers now (raw d x) && negb (bool_decide (x = str dst))) Hr') as Hk. clear Hr'.
  destruct (map str (kept_keys _ l)) as [|k ks]; [split; auto|].
  rewrite wp_mlock_bare. unfold ref_store_at. rewrite <- (opnd_raw now d d' k) by (apply Hk; left).
  rewrite <- (read_present now d d' ks) by (intros; apply Hk; right; auto).
  assert (Hgo : forall s, wp (eq now) d'
      (old <- dict_get (str dst) ;;
       sets <- read_sets [] ks [] ;;
       let '(reply, destSet) :=
         match sets with
         | inr _ => (err_wrong_kind, ∅)
         | inl sets => let res := set_op op s sets in (RInt (set_len res), res)
         end in
       dict_set (str dst) (VSet destSet) ;;;
       (match old with Some _ => delete_expire (str dst) | None => Ret false end) ;;;
       Ret reply) (oks (fun r d'' =>
         match match mapM (fun k => match dict d' !! k with None => Some [] | Some (VSet s) => Some [s] | Some _ => None end) ks with
               | Some l => Some (concat l) | None => None end with
         | Some ss => exists s', (forall x, x ∈ s' <-> in_result op x s ss) /\ r = RInt (card s') /\ upd (view now d) (view now d'') (str dst) (Some (VSet s', None))
         | None => r = err_wrong_kind /\ upd (view now d) (view now d'') (str dst) (Some (VSet ∅, None))
         end))).
  { intros s. rewrite wp_dict_get. apply read_sets_wp. 
    assert (Hput : forall (res : gset bytes) (r : rdata), wp (eq now) d' (dict_set (str dst) (VSet res) ;;;
         (match dict d' !! str dst with Some _ => delete_expire (str dst) | None => Ret false end) ;;; Ret r)
         (oks (fun r' d'' => r' = r /\ upd (view now d) (view now d'') (str dst) (Some (VSet res, None))))).
    { intros res r. 
      assert (Hfin : forall d'', raw d'' (str dst) = Some (VSet res, None) -> (forall k', k' <> str dst -> raw d'' k' = raw d' k') ->
        upd (view now d) (view now d'') (str dst) (Some (VSet res, None))).
      { intros d'' H1 H2. split; [rewrite view_raw, H1; auto|]. intros k' Hk'. rewrite view_raw, H2, <- view_raw by auto. apply Hsame. }
      destruct (dict d' !! str dst) eqn:Ed; wps; (split; [auto|]); apply Hfin.
      - rawsimp. auto.
      - intros; rawsimp; auto.
      - rewrite raw_put, decide_True by auto. rewrite raw_None; auto. 
      - intros; rawsimp; auto. }
    destruct (mapM _ ks) as [ll|]; cbn [app]; cbv zeta iota beta.
    - eapply wp_mono; [|apply Hput]. intros [r d''|d''|d'']; cbn; auto. intros [-> Hu]. exists (set_op op s (concat ll)). split; [intros; apply set_op_spec|]. auto.
    - apply Hput. }
  rewrite wp_dict_get. unfold opnd at 1. destruct (dict d' !! k) as [[]|] eqn:E; try apply Hgo; split; auto.
Qed.
End WithParams.
