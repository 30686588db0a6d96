(** Proof about KEYS (memdb/keys.go:61-79, memdb/concurrentMap.go:100-112). *)
From Verif Require Import WpTac StringsProofs.

Section WithParams.
Context {P : Setup}.

Lemma keys_fill_wp T d n i room (f : list bytes -> prog rdata) Q :
  let inr k := (i <= segpos k < i + N.of_nat n)%N in
  room = zlen (filter inr (map_to_list (dict d)).*1) ->
  (forall l, l ≡ₚ filter inr (map_to_list (dict d)).*1 -> wp T d (f l) Q) ->
  wp T d (pbind (keys_fill n i room) f) Q.
Proof.
  revert i room f. induction n as [|n IH]; intros i room f inr Hroom H.
  - cbn [keys_fill pbind].
    assert (E : filter inr (map_to_list (dict d)).*1 = []).
    { clear. unfold inr. induction (map_to_list (dict d)).*1 as [|k ks IH]; auto.
      rewrite filter_cons, decide_False by lia. auto. }
    rewrite E in *. subst room. apply H. auto.
  - cbn [keys_fill pbind wp]. intros l Hl.
    set (ks := (map_to_list (dict d)).*1) in *.
    set (inr' := fun k => (i + 1 <= segpos k < i + 1 + N.of_nat n)%N).
    assert (Hsplit : filter inr ks ≡ₚ filter (fun k => segpos k = i) ks ++ filter inr' ks).
    { clear. unfold inr, inr'. induction ks as [|k ks IH]; [auto|].
      rewrite !filter_cons.
      destruct (decide (segpos k = i)) as [E|E].
      - rewrite decide_True by lia. rewrite (decide_False (P := (i + 1 <= segpos k < _)%N)) by lia.
        rewrite IH. auto.
      - destruct (decide (i + 1 <= segpos k < i + 1 + N.of_nat n)%N) as [E'|E'].
        + rewrite decide_True by lia. rewrite IH. apply Permutation_middle.
        + rewrite decide_False by lia. auto. }
    assert (Hlen : zlen l = zlen (filter (fun k => segpos k = i) ks)).
    { unfold zlen. f_equal. apply Permutation_length. exact Hl. }
    assert (Hlen2 : room = zlen l + zlen (filter inr' ks)).
    { rewrite Hroom, Hlen. unfold zlen. rewrite (Permutation_length Hsplit), app_length. lia. }
    assert (Hr : (room <? zlen l) = false).
    { apply Z.ltb_ge. unfold zlen in *. lia. }
    rewrite Hr. rewrite pbind_assoc. apply IH.
    + fold ks. fold inr'. lia.
    + intros l' Hl'. apply H. fold ks in Hl'. fold inr' in Hl'. rewrite Hsplit.
      apply Permutation_app; auto.
Qed.

Lemma segpos_lt k : (segpos k < Npos segnum)%N.
Proof. unfold segpos. apply N.mod_lt. discriminate. Qed.

Lemma dict_keys_wp T d (f : list bytes -> prog rdata) Q :
  Inv d -> Z.of_nat (size (dict d)) * 16 <= 2 ^ 48 ->
  (forall l, l ≡ₚ (map_to_list (dict d)).*1 -> wp T d (f l) Q) ->
  wp T d (pbind dict_keys f) Q.
Proof.
  intros HI Hsz H. unfold dict_keys. cbn [pbind wp].
  assert (Hc : cnt d = zlen (map_to_list (dict d)).*1).
  { destruct HI as [_ ->]. unfold zlen. rewrite fmap_length. reflexivity. }
  replace (make_ok (cnt d) 16) with true.
  2:{ destruct HI as [_ HI]. rewrite HI. unfold make_ok. symmetry. apply andb_true_iff. rewrite !Z.leb_le. lia. }
  assert (Hall : filter (fun k => (0 <= segpos k < 0 + N.of_nat (Pos.to_nat segnum))%N) (map_to_list (dict d)).*1
           = (map_to_list (dict d)).*1).
  { clear Hc H. induction (map_to_list (dict d)).*1 as [|k ks IH]; auto.
    pose proof (segpos_lt k). rewrite filter_cons, decide_True by lia. congruence. }
  apply keys_fill_wp.
  - rewrite Hall. exact Hc.
  - rewrite Hall. auto.
Qed.

Lemma keys_loop_wp now d p ks (f : list rdata -> prog rdata) Q :
  Inv d -> (forall k, k ∈ ks -> is_Some (dict d !! k)) -> NoDup ks ->
  (forall k, view now d k <> None -> exists b, glob p k = GOk b) ->
  (forall d' l, Inv d' -> sim now d' d -> NoDup l ->
     (forall k, k ∈ l <-> k ∈ ks /\ view now d k <> None /\ glob p k = GOk true) ->
     wp (eq now) d' (f (map (fun k => RBulk (Some k)) l)) Q) ->
  wp (eq now) d (pbind (keys_loop p ks) f) Q.
Proof.
  revert d f. induction ks as [|k ks IH]; intros d f HI Hin Hnd Hg H.
  - cbn [keys_loop pbind]. apply (H d []); auto using sim_refl, NoDup_nil_2. set_solver.
  - cbn [keys_loop]. rewrite pbind_assoc. apply stdpp.list.NoDup_cons in Hnd as [Hk Hnd].
    rewrite wp_purge. destruct (expired now d k) eqn:Hex.
    + assert (Hs1 : sim now (purge k d) d) by (apply sim_purge; auto).
      assert (Hv : forall k', view now (purge k d) k' = view now d k') by (intros; apply (sim_view now); auto; lia).
      assert (Hkn : view now d k = None) by (apply view_expired; auto).
      apply IH; [auto with inv| |auto| |].
      * intros k' Hk'. unfold purge; simpl. rewrite lookup_delete_ne by set_solver. apply Hin. set_solver.
      * intros ?. rewrite Hv. auto.
      * intros d' l HI' Hs' Hl Hl'. apply H; auto.
        -- eapply sim_trans; eauto.
        -- intros k'. rewrite Hl', Hv. rewrite elem_of_cons. split; [tauto|].
           intros [[->|?] [??]]; [congruence|auto].
    + assert (Hlive : view now d k <> None).
      { rewrite view_notexpired by auto. unfold raw. destruct (Hin k) as [v ->]; [set_solver|]. discriminate. }
      destruct (Hg k Hlive) as [b Hb]. rewrite Hb. destruct b.
      * rewrite pbind_assoc. apply IH; auto. { intros; apply Hin; set_solver. }
        intros d' l HI' Hs' Hl Hl'. cbn [pbind].
        change (RBulk (Some k) :: map (fun k => RBulk (Some k)) l) with (map (fun k => RBulk (Some k)) (k :: l)).
        apply H; auto.
        -- constructor; auto. intros Hkl. apply Hl' in Hkl. tauto.
        -- intros k'. rewrite !elem_of_cons, Hl'. split.
           ++ intros [->|?]; [auto|tauto].
           ++ intros [[->|?] ?]; auto.
      * apply IH; auto. { intros; apply Hin; set_solver. }
        intros d' l HI' Hs' Hl Hl'. apply H; auto.
        intros k'. rewrite Hl', elem_of_cons. split; [tauto|]. intros [[->|?] [? E]]; [congruence|auto].
Qed.

Lemma keys_ok n p :
  named n "keys" ->
  implements_on (fun now d => Z.of_nat (size (dict d)) * 16 <= 2 ^ 48 /\
                   forall k, view now d k <> None -> exists b, glob (str p) k = GOk b)
    [n; p] (keys_spec (fun k => glob (str p) k = GOk true)).
Proof.
  intros Hn. apply impl_multi. intros now d HI [Hsz Hg]. exec_cmd Hn. unfold keys_key.
  apply dict_keys_wp; auto. intros l Hl.
  apply keys_loop_wp; auto.
  - intros k Hk. rewrite Hl in Hk. apply elem_of_list_fmap in Hk as ([k' v] & -> & Hk').
    apply elem_of_map_to_list in Hk'. simpl. eauto.
  - rewrite Hl. apply NoDup_fst_map_to_list.
  - intros d' l' HI' Hs Hnd Hl'. wps. eexists _, _. split; [reflexivity|]. split; [auto|]. split.
    + intros k. apply (sim_view now); auto; lia.
    + exists l'. split; [auto|]. split; [auto|]. intros k. rewrite Hl'. split; [tauto|].
      intros [Hk ?]. split; [|auto]. rewrite Hl. rewrite view_raw in Hk. unfold raw in Hk.
      destruct (dict d !! k) as [v|] eqn:E; [|elim Hk; auto].
      apply elem_of_list_fmap. exists (k, v). split; auto. apply elem_of_map_to_list. auto.
Qed.

End WithParams.
