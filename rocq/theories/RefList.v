(** The reference holds: lists. *)
From Verif Require Export RefStrings.

Section WithParams.
Context {P : Setup}.

Lemma lpush_meets n args now d : named n "lpush" -> Inv d -> meets now d (n :: args) (ref_of "lpush" args).
Proof.
  intros Hn HI. open_ref. destruct args as [|k [|f fs]]; try refuse Hn.
  apply meets_plain; [apply (lpush_ok n k (f :: fs))| |nodl Hn]; auto.
Qed.
Lemma rpush_meets n args now d : named n "rpush" -> Inv d -> meets now d (n :: args) (ref_of "rpush" args).
Proof.
  intros Hn HI. open_ref. destruct args as [|k [|f fs]]; try refuse Hn.
  apply meets_plain; [apply (rpush_ok n k (f :: fs))| |nodl Hn]; auto.
Qed.
Lemma lpushx_meets n args now d : named n "lpushx" -> Inv d -> meets now d (n :: args) (ref_of "lpushx" args).
Proof.
  intros Hn HI. open_ref. destruct args as [|k [|f fs]]; try refuse Hn.
  apply meets_plain; [apply (lpushx_ok n k (f :: fs))| |nodl Hn]; auto.
Qed.
Lemma rpushx_meets n args now d : named n "rpushx" -> Inv d -> meets now d (n :: args) (ref_of "rpushx" args).
Proof.
  intros Hn HI. open_ref. destruct args as [|k [|f fs]]; try refuse Hn.
  apply meets_plain; [apply (rpushx_ok n k (f :: fs))| |nodl Hn]; auto.
Qed.
Lemma llen_meets n args now d : named n "llen" -> Inv d -> meets now d (n :: args) (ref_of "llen" args).
Proof.
  intros Hn HI. open_ref. destruct args as [|k [|f fs]]; try refuse Hn.
  apply meets_plain; [apply llen_ok| |nodl Hn]; auto.
Qed.

(** ** Popping *)
Lemma pop_meets left n args now d s : named n s -> lookup_cmd (B s) = Some (pop_list left) -> Inv d ->
  meets now d (n :: args) (ref_pop left args).
Proof.
  intros Hn Hl HI.
  assert (Hx : exec_in_db (n :: args) = pop_list left (n :: args)) by (rewrite (exec_named _ _ _ _ Hn Hl); auto).
  destruct args as [|k [|a [|? ?]]]; cbn [ref_pop].
  - apply meets_say. rewrite Hx. split; auto using sim_refl.
  - apply meets_on. rewrite Hx. apply oks_done, pop_wp; auto.
  - apply meets_gone; auto; intros He.
    { apply meets_say. rewrite Hx. apply purge_gone; auto. }
    destruct (atoi (str a)) as [c|] eqn:Ea.
    + destruct (Z.eqb_spec c 1) as [->|Hc].
      * apply meets_on. rewrite Hx. unfold pop_list. rewrite Ea. apply oks_done, pop_wp; auto.
      * destruct (Z.ltb_spec 0 c).
        -- apply meets_on. rewrite Hx. unfold pop_list. rewrite Ea, (proj2 (Z.leb_gt c 0)) by lia. apply oks_done, popn_wp; auto. lia.
        -- apply meets_say. rewrite Hx. unfold pop_list. rewrite Ea, (proj2 (Z.leb_le c 0)) by lia. apply purge_live; auto. split; auto using sim_refl.
    + apply meets_say. rewrite Hx. unfold pop_list. rewrite Ea. apply purge_live; auto. split; auto using sim_refl.
  - apply meets_on. rewrite Hx. apply oks_done, pop_wp; auto.
Qed.
Lemma lpop_meets n args now d : named n "lpop" -> Inv d -> meets now d (n :: args) (ref_of "lpop" args).
Proof. intros Hn HI. open_ref. apply (pop_meets true n args now d "lpop"); auto. Qed.
Lemma rpop_meets n args now d : named n "rpop" -> Inv d -> meets now d (n :: args) (ref_of "rpop" args).
Proof. intros Hn HI. open_ref. apply (pop_meets false n args now d "rpop"); auto. Qed.

(** ** Reading and updating *)
Ltac onk He := rewrite view_notexpired by auto; rewrite ?wp_lock_bare, wp_dict_get;
  match goal with |- context [raw ?d ?k] =>
    let HD := fresh "HD" in let Er := fresh "Er" in pose proof (raw_dict d k _ eq_refl) as HD;
    destruct (raw d k) as [[[?s|?h|?l|?s] ?dl]|] eqn:Er; rewrite HD; cbn [wp oks]; rewrite ?Er
  end.
Lemma lindex_meets n args now d : named n "lindex" -> Inv d -> meets now d (n :: args) (ref_of "lindex" args).
Proof.
  intros Hn HI. open_ref. destruct args as [|k [|a [|? ?]]]; try refuse Hn.
  apply meets_gone; auto; intros He.
  { apply meets_say. exec_cmd Hn. apply purge_gone; auto. }
  unfold int, int_or. destruct (atoi (str a)) as [i|] eqn:Ea.
  - destruct (Z.eq_dec i min_int) as [->|Hi].
    + apply meets_onf. exec_cmd Hn. unfold lindex_list. apply purge_live; auto. rewrite Ea. unfold list_read, lindex_spec. onk He; auto.
      unfold list_index. change (min_int <? 0) with true. change (wrap64 (- min_int)) with min_int. cbv iota zeta.
      rewrite (proj2 (Z.ltb_ge (zlen l) min_int)) by (unfold zlen, min_int; lia). change (min_int <? 0) with true. exact I.
    + apply meets_plain; [apply lindex_ok; auto|auto|nodl Hn].
  - apply meets_say. exec_cmd Hn. unfold lindex_list. apply purge_live; auto. rewrite Ea. split; auto using sim_refl.
Qed.
Lemma lset_meets n args now d : named n "lset" -> Inv d -> meets now d (n :: args) (ref_of "lset" args).
Proof.
  intros Hn HI. open_ref. destruct args as [|k [|a [|v [|? ?]]]]; try refuse Hn.
  apply meets_gone; auto; intros He.
  { apply meets_say. exec_cmd Hn. apply purge_gone; auto. }
  unfold int, int_or. destruct (atoi (str a)) as [i|] eqn:Ea.
  - destruct (Z.eq_dec i min_int) as [->|Hi].
    + apply meets_on. exec_cmd Hn. unfold lset_list. apply purge_live; auto. rewrite Ea. unfold list_update, lset_spec. onk He; auto.
      unfold list_index. change (min_int <? 0) with true. change (wrap64 (- min_int)) with min_int. cbv iota zeta.
      rewrite (proj2 (Z.ltb_ge (zlen l) min_int)) by (unfold zlen, min_int; lia). change (min_int <? 0) with true. exact I.
    + apply meets_plain; [apply lset_ok; auto|auto|nodl Hn].
  - apply meets_say. exec_cmd Hn. unfold lset_list. apply purge_live; auto. rewrite Ea. split; auto using sim_refl.
Qed.
Lemma lrem_meets n args now d : named n "lrem" -> Inv d -> meets now d (n :: args) (ref_of "lrem" args).
Proof.
  intros Hn HI. open_ref. destruct args as [|k [|a [|v [|? ?]]]]; try refuse Hn.
  apply meets_gone; auto; intros He.
  { apply meets_say. exec_cmd Hn. apply purge_gone; auto. }
  unfold int, int_or. destruct (atoi (str a)) as [c|] eqn:Ea.
  - unfold ref_lrem. destruct (Z.eqb_spec c min_int) as [->|Hi].
    + apply meets_on. exec_cmd Hn. unfold lrem_list. apply purge_live; auto. rewrite Ea. unfold list_update. onk He; auto.
      assert (E : list_rem l v min_int = (0, l)).
      { unfold list_rem. destruct (zlen l =? 0); auto. change (min_int =? 0) with false. change (wrap64 (- min_int)) with min_int. cbv iota zeta.
        change (0 <? min_int) with false. cbv iota.
        assert (E : forall x, remove_upto x v min_int = (0, x)) by (intros []; reflexivity). rewrite E, rev_involutive. auto. }
      rewrite E. cbn [on_list]. rewrite wp_obj_put. eapply drop_if_empty_wp; [reflexivity|assumption|right; eauto|]. intros d' HI' Hr' Hfr'.
      cbn [wp oks]. rewrite Hr'. auto.
    + apply meets_plain; [apply lrem_ok; auto|auto|nodl Hn].
  - apply meets_say. exec_cmd Hn. unfold lrem_list. apply purge_live; auto. rewrite Ea. split; auto using sim_refl.
Qed.
Lemma lrange_meets n args now d : named n "lrange" -> Inv d -> meets now d (n :: args) (ref_of "lrange" args).
Proof.
  intros Hn HI. open_ref. destruct args as [|k [|a [|b [|? ?]]]]; try refuse Hn.
  apply meets_gone; auto; intros He.
  { apply meets_say. exec_cmd Hn. apply purge_gone; auto. }
  unfold both_ints, int, int_or. destruct (atoi (str a)) as [i|] eqn:Ea, (atoi (str b)) as [j|] eqn:Eb;
    try (apply meets_say; exec_cmd Hn; unfold lrange_list; apply purge_live; auto; rewrite ?Ea, ?Eb; split; auto using sim_refl).
  apply meets_plain; [apply lrange_ok; auto|auto|nodl Hn].
Qed.
Lemma ltrim_meets n args now d : named n "ltrim" -> Inv d -> meets now d (n :: args) (ref_of "ltrim" args).
Proof.
  intros Hn HI. open_ref. destruct args as [|k [|a [|b [|? ?]]]]; try refuse Hn.
  apply meets_gone; auto; intros He.
  { apply meets_say. exec_cmd Hn. apply purge_gone; auto. }
  unfold both_ints, int, int_or. destruct (atoi (str a)) as [i|] eqn:Ea, (atoi (str b)) as [j|] eqn:Eb;
    try (apply meets_say; exec_cmd Hn; unfold ltrim_list; apply purge_live; auto; rewrite ?Ea, ?Eb; split; auto using sim_refl).
  apply (meets_impl (fun now d => list_nonempty (str k) now (view now d) \/ 0 <= i \/ j < 0) now d [n; k; a; b] (single_fun (str k) (ltrim_spec i j))).
  { exact (ltrim_ok n k a b i j Hn Ea Eb). }
  { assumption. }
  { nodl Hn. }
  2: { intros r S' H. exact H. }
  intros Hnp. destruct (Z.le_gt_cases 0 i); auto. destruct (Z.lt_ge_cases j 0); auto. left. intros dl Hv. apply Hnp. unfold panics.
  do 5 right. left. split; [exact Hn|]. exists k, a, b, i, j, dl. repeat split; assumption.
Qed.
Lemma linsert_meets n args now d : named n "linsert" -> Inv d -> meets now d (n :: args) (ref_of "linsert" args).
Proof.
  intros Hn HI. open_ref. destruct args as [|k [|w [|p [|v [|? ?]]]]]; try refuse Hn.
  apply meets_gone; auto; intros He.
  { apply meets_say. exec_cmd Hn. apply purge_gone; auto. }
  unfold is_word. destruct (decide (named w "before")) as [Hb|Hb]; [rewrite bool_decide_eq_true_2 by auto|rewrite bool_decide_eq_false_2 by auto].
  { apply meets_plain; [apply linsert_before_ok; auto|auto|nodl Hn]. }
  destruct (decide (named w "after")) as [Ha|Ha]; [rewrite bool_decide_eq_true_2 by auto|rewrite bool_decide_eq_false_2 by auto].
  - destruct (decide (str v = str p)) as [Hv|Hv].
    + apply meets_onf. exec_cmd Hn. unfold linsert_list. apply purge_live; auto. cbv zeta.
      rewrite (named_beq w "after") by auto. rewrite (unnamed_beq w "before") by auto. cbn [negb andb].
      unfold list_update, linsert_spec. onk He; auto. unfold list_insert_after. cbn [on_list].
      rewrite existsb_count. replace (veq v p) with true by (symmetry; rewrite veq_matches; apply bool_decide_eq_true; auto).
      destruct (count_matches p l =? 0); cbn [negb andb]; [|exact I]. cbn [wp oks]. rewrite Er. auto.
    + apply meets_plain; [apply linsert_after_ok; auto|auto|nodl Hn].
  - apply meets_say. exec_cmd Hn. unfold linsert_list. apply purge_live; auto. cbv zeta.
    rewrite (unnamed_beq w "after") by auto. rewrite (unnamed_beq w "before") by auto. split; auto using sim_refl.
Qed.

(** ** LPOS *)
Lemma reads_lpos_all l : Nat.odd (length l) = false -> exists os e, reads_lpos l os e /\
  match e with None => lpos_spells l os | Some r => forall o, lpos_opts l o = inr r end.
Proof.
  revert l. fix IH 1. intros [|w [|a l]]; cbn [length]; [|discriminate|].
  { exists [], None. split; constructor. }
  rewrite Nat.odd_succ_succ. intros Hl. specialize (IH l Hl). destruct IH as (os & e & Hr & He). clear Hl.
  destruct (decide (named w "rank")) as [H1|H1].
  { destruct (atoi (str a)) as [z|] eqn:Ea.
    - destruct (Z.eq_dec z 0) as [->|Hz].
      + exists [], (Some err_rank_zero). split; [apply rl_rank; auto|]. intros o. cbn [lpos_opts]. rewrite named_beq, Ea by auto. reflexivity.
      + exists (LRank z :: os), e. split; [constructor; auto|]. destruct e; [|constructor; auto].
        intros o. cbn [lpos_opts]. rewrite named_beq, Ea, (proj2 (Z.eqb_neq z 0)) by auto. auto.
    - exists [], (Some err_int). split; [apply rl_bad; auto|]. intros o. cbn [lpos_opts]. rewrite named_beq, Ea by auto. reflexivity. }
  destruct (decide (named w "count")) as [H2|H2].
  { destruct (atoi (str a)) as [z|] eqn:Ea.
    - destruct (Z.lt_ge_cases z 0) as [Hz|Hz].
      + eexists [], (Some _). split; [eapply rl_count; eauto|]. intros o. cbn [lpos_opts]. rewrite unnamed_beq, (named_beq w "count"), Ea, (proj2 (Z.ltb_lt z 0)) by auto. reflexivity.
      + exists (LCount z :: os), e. split; [constructor; auto|]. destruct e; [|constructor; auto].
        intros o. cbn [lpos_opts]. rewrite unnamed_beq, (named_beq w "count"), Ea, (proj2 (Z.ltb_ge z 0)) by auto. auto.
    - exists [], (Some err_int). split; [apply rl_bad; auto|]. intros o. cbn [lpos_opts]. rewrite unnamed_beq, (named_beq w "count"), Ea by auto. reflexivity. }
  destruct (decide (named w "maxlen")) as [H3|H3].
  { destruct (atoi (str a)) as [z|] eqn:Ea.
    - destruct (Z.lt_ge_cases z 0) as [Hz|Hz].
      + eexists [], (Some _). split; [eapply rl_maxlen; eauto|]. intros o. cbn [lpos_opts]. rewrite (unnamed_beq w "rank"), (unnamed_beq w "count"), (named_beq w "maxlen"), Ea, (proj2 (Z.ltb_lt z 0)) by auto. reflexivity.
      + exists (LMaxlen z :: os), e. split; [constructor; auto|]. destruct e; [|constructor; auto].
        intros o. cbn [lpos_opts]. rewrite (unnamed_beq w "rank"), (unnamed_beq w "count"), (named_beq w "maxlen"), Ea, (proj2 (Z.ltb_ge z 0)) by auto. auto.
    - exists [], (Some err_int). split; [apply rl_bad; auto|]. intros o. cbn [lpos_opts]. rewrite (unnamed_beq w "rank"), (unnamed_beq w "count"), (named_beq w "maxlen"), Ea by auto. reflexivity. }
  eexists [], (Some _). split; [apply rl_unknown; auto|]. intros o. cbn [lpos_opts].
  rewrite (unnamed_beq w "rank"), (unnamed_beq w "count"), (unnamed_beq w "maxlen") by auto. reflexivity.
Qed.
Lemma meets_mono now d cmd (m m' : meaning) : meets now d cmd m ->
  (forall r S', m now (view now d) (fun k => lingers now (raw d k)) r S' -> m' now (view now d) (fun k => lingers now (raw d k)) r S') -> meets now d cmd m'.
Proof. intros H Hm r d' Hst. destruct (H r d' Hst) as (S' & H1 & H2). exists S'. auto. Qed.
Lemma lpos_meets n args now d : named n "lpos" -> Inv d -> meets now d (n :: args) (ref_of "lpos" args).
Proof.
  intros Hn HI. open_ref. destruct args as [|k [|v l]]; try refuse Hn. unfold ref_lpos.
  destruct (Nat.odd (length l)) eqn:El.
  { apply (meets_mono now d _ (say err_args)); auto. apply meets_say. exec_cmd Hn. unfold lpos_list. cbn [length].
    rewrite Nat.even_succ, Nat.odd_succ, Nat.even_succ, El. split; auto using sim_refl. }
  apply (meets_mono now d _ (if_gone k (RBulk None) (fun now S gone r S' => exists os e, reads_lpos l os e /\
    match e with
    | Some r0 => say r0 now S gone r S'
    | None => onf k (lpos_spec v (last_opt rank_of os) (last_opt count_of os) (last_opt maxlen_of os)) now S gone r S'
    end))); auto.
  assert (Hev : Nat.even (length (n :: k :: v :: l)) = false).
  { cbn [length]. rewrite Nat.even_succ, Nat.odd_succ, Nat.even_succ, El. auto. }
  apply meets_gone; auto; intros He.
  { apply meets_say. exec_cmd Hn. unfold lpos_list. rewrite Hev. apply purge_gone; auto. }
  destruct (reads_lpos_all l El) as (os & [r0|] & Hr & Hs).
  - apply (meets_mono now d _ (say r0)); [|eauto]. apply meets_say. exec_cmd Hn. unfold lpos_list. rewrite Hev. apply purge_live; auto.
    rewrite Hs. split; auto using sim_refl.
  - eapply (meets_mono now d _ (onf k _)); [apply meets_plain; [apply (lpos_ok n k v l os); auto|auto|nodl Hn]|].
    intros r S' HS. exists os, None. auto.
Qed.

(** ** LMOVE *)
Lemma meets_multi now d cmd (m : meaning) : Inv d -> sets_no_deadline cmd ->
  wp (eq now) d (exec_in_db cmd) (oks (fun r d' => m now (view now d) (fun k => lingers now (raw d k)) r (view now d'))) -> meets now d cmd m.
Proof.
  intros HI Hn H r d' Hst. pose proof (wp_sound _ _ _ _ _ Hst H) as Hm. cbn in Hm. exists (view now d'). split; auto.
  intros k. split; [rewrite live_view; auto; lia|]. intros Hl. left. eapply fewer_lingers; eauto using step_fewer.
Qed.
Lemma direction_word w fl : direction w = Some fl -> named w (end_word fl).
Proof.
  unfold direction, is_word. destruct (bool_decide _) eqn:E1; [intros [= <-]; apply bool_decide_eq_true in E1; auto|].
  destruct (bool_decide (named w "right")) eqn:E2; [|discriminate]. intros [= <-]. apply bool_decide_eq_true in E2; auto.
Qed.
Lemma direction_none w : direction w = None -> ~ named w "left" /\ ~ named w "right".
Proof.
  unfold direction, is_word. destruct (bool_decide _) eqn:E1; [discriminate|]. destruct (bool_decide (named w "right")) eqn:E2; [discriminate|].
  apply bool_decide_eq_false in E1, E2. auto.
Qed.
Lemma lmove_meets n args now d : named n "lmove" -> Inv d -> meets now d (n :: args) (ref_of "lmove" args).
Proof.
  intros Hn HI. open_ref. destruct args as [|a [|b [|wa [|wb [|? ?]]]]]; try refuse Hn.
  apply meets_gone; auto; intros He.
  { apply meets_say. exec_cmd Hn. apply purge_gone; auto. }
  assert (Hbad : ~ named wa "left" /\ ~ named wa "right" \/ ~ named wb "left" /\ ~ named wb "right" -> meets now d [n; a; b; wa; wb] (say err_syntax)).
  { intros Hw. apply meets_say. exec_cmd Hn. unfold lmove_list. apply purge_live; auto. cbv zeta. apply purge_say; auto. intros _.
    destruct Hw as [[? ?]|[? ?]].
    - rewrite (unnamed_beq wa "left"), (unnamed_beq wa "right") by auto. reflexivity.
    - rewrite (unnamed_beq wb "left"), (unnamed_beq wb "right") by auto. rewrite orb_true_r. reflexivity. }
  destruct (direction wa) as [fl|] eqn:Ea; [|apply Hbad; auto using direction_none].
  destruct (direction wb) as [tl|] eqn:Eb; [|apply Hbad; auto using direction_none].
  clear Hbad. apply direction_word in Ea, Eb.
  destruct (view now d (str a)) as [[va da]|] eqn:Hva.
  2: { eapply (meets_impl (fun now d => list_nonempty (str a) now (view now d))); [exact (lmove_ok n a b wa wb fl tl Hn Ea Eb)|auto|nodl Hn| |].
       - intros _ dl. congruence.
       - intros r S'. unfold lmove_spec, ref_lmove_at, plain. rewrite Hva. auto. }
  assert (Hcase : (exists l, va = VList l /\ l <> []) \/ va = VList [] \/ match va with VList _ => False | _ => True end).
  { destruct va as [| |[|x l]|]; auto. left. exists (x :: l). split; auto; discriminate. }
  destruct Hcase as [(l & -> & Hl)|Hcase].
  { eapply (meets_impl (fun now d => list_nonempty (str a) now (view now d))); [exact (lmove_ok n a b wa wb fl tl Hn Ea Eb)|auto|nodl Hn| |].
    - intros _ dl. congruence.
    - intros r S'. unfold lmove_spec, ref_lmove_at, plain. rewrite Hva. destruct (view now d (str b)) as [[[] ?]|] eqn:Hvb; unfold lmove_spec; rewrite ?Hva, ?Hvb; try (intros H; exact H).
      all: intros [-> HS]; split; auto; split; [|intros; apply HS]; rewrite HS, Hva; destruct l; [congruence|reflexivity]. }
  apply meets_multi; [auto|nodl Hn|]. exec_cmd Hn. unfold lmove_list. cbv zeta. unfold named in Ea, Eb. rewrite Ea, Eb.
  eapply (wp_purge2 now d (str a) (str b)); [assumption| | |reflexivity]; cbv beta iota.
  { intros d1 HI1 Hs1 Hv. congruence. }
  intros d2 e2 HI2 Hs Hra Hrb _. clear e2.
  assert (Hsame : same (view now d) (view now d2)) by (intros k; apply (sim_view now); auto; lia).
  assert (Hw : forall fl : bool, beq (B (end_word fl)) (B "left") = fl /\ (beq (B (end_word fl)) (B "right")) = negb fl)
    by (intros []; split; reflexivity).
  rewrite !(proj1 (Hw fl)), !(proj1 (Hw tl)), !(proj2 (Hw fl)), !(proj2 (Hw tl)).
  replace (negb fl && negb (negb fl) || negb tl && negb (negb tl)) with false by (destruct fl, tl; auto).
  pose proof (raw_dict _ _ _ Hra) as HDa. pose proof (raw_exps _ _ _ HI2 Hra) as HEa.
  pose proof (raw_dict _ _ _ Hrb) as HDb. pose proof (raw_exps _ _ _ HI2 Hrb) as HEb.
  rewrite Hva in *. unfold plain, ref_lmove_at.
  destruct Hcase as [->|Hnl].
  - rewrite wp_mlock_bare, wp_dict_get, HDa. rewrite wp_dict_get, HDb.
    destruct (view now d (str b)) as [[[s|h|m|s] db0]|] eqn:Hvb; cbn [pbind].
    1,2,4: rewrite wp_dict_get, HDa; eapply drop_if_empty_wp2; [assumption|eassumption|]; intros d' HI' Hr' Hf'; cbn [wp oks]; rewrite Hva; split; [auto|];
      split; [rewrite view_raw, Hr'; reflexivity|]; intros k' Hk'; rewrite view_raw, Hf', <- view_raw by auto; apply Hsame.
    + destruct fl; exact I.
    + wps. destruct fl; exact I.
  - rewrite wp_mlock_bare, wp_dict_get, HDa. rewrite wp_dict_get, HDb.
    destruct (view now d (str b)) as [[vb db0]|] eqn:Hvb; cbn [pbind].
    + destruct va; try contradiction; cbn [wp oks]; rewrite Hva; split; auto.
    + wps. assert (Hu : upd (view now d) (view now (put (str b) (VList []) d2)) (str b) (Some (VList [], None))).
      { split; [rewrite view_raw; rawsimp; reflexivity|]. intros k' Hk'. rewrite view_raw. rawsimp. rewrite <- view_raw. apply Hsame. }
      destruct va; try contradiction; cbn [wp oks]; rewrite Hva; auto.
Qed.
End WithParams.
