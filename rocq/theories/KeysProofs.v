(** Proofs about memdb/keys.go. *)
From Verif Require Import WpTac StringsProofs.

Section WithParams.
Context {P : Setup}.

Lemma ttl_ok n k : named n "ttl" -> implements [n; k] (single_fun (str k) ttl_spec).
Proof.
  intros Hn. apply impl_single_fun. start Hn. unfold ttl_key.
  purge_k. destruct b.
  - rewrite (Hb eq_refl) in *. wps. fin.
  - ent; wps; [destruct dl|]; wps; fin.
Qed.

Lemma type_ok n k : named n "type" -> implements [n; k] (single_fun (str k) type_spec).
Proof.
  intros Hn. apply impl_single_fun. start Hn. unfold type_key.
  purge_k. destruct b.
  - rewrite (Hb eq_refl) in *. wps. fin.
  - ent; wps; [destruct v|]; wps; fin.
Qed.

Lemma persist_ok n k : named n "persist" -> implements [n; k] (single (str k) persist_spec).
Proof.
  intros Hn. apply impl_single. start Hn. unfold persist_key, persist_spec.
  purge_k. destruct b.
  - rewrite (Hb eq_refl) in *. wps. fin. auto.
  - ent; wps; fin; auto.
Qed.

Lemma beq_nil_B a : beq (B a) [] = match a with EmptyString => true | _ => false end.
Proof. destruct a; reflexivity. Qed.



Lemma expire_wp now d k a i o raw0 : Inv d -> atoi (str a) = Some i ->
  wp (eq now) d (expire_run k a (B (expopt_word o)) raw0)
  (fun out =>
     exists r d', out = Done r d' /\ Inv d' /\ (r, raw d' (str k)) = expire_spec o i now (view now d (str k)) /\
         forall k', k' <> (str k) -> raw d' k' = raw d k').
Proof.
  intros HI Ha. unfold expire_run. rewrite Ha, wp_now. cbv zeta.
  purge_k. set (t := wrap64 (now + i)). unfold expire_spec. fold t.
  destruct b.
  - rewrite (Hb eq_refl) in *. wps. fin.
  - destruct o; cbn [expopt_word]; beqs; rewrite ?beq_nil_B;
      ent; try destruct dl as [t0|]; wps; cbn [expire_allowed]; try (fin; fail).
    + destruct (t0 <? t) eqn:E; wps; fin.
    + destruct (t <? t0) eqn:E; wps; fin.
Qed.

Lemma expire_ok n k a i o w :
  named n "expire" -> atoi (str a) = Some i -> named w (expopt_word o) ->
  implements [n; k; a; w] (single_fun (str k) (expire_spec o i)).
Proof.
  intros Hn Ha Hw. apply impl_single_fun. start Hn. unfold expire_key. unfold named in Hw.
  rewrite Hw. apply expire_wp; auto.
Qed.
Lemma expire3_ok n k a i :
  named n "expire" -> atoi (str a) = Some i ->
  implements [n; k; a] (single_fun (str k) (expire_spec ENone i)).
Proof.
  intros Hn Ha. apply impl_single_fun. start Hn. unfold expire_key.
  apply (expire_wp now d k a i ENone); auto.
Qed.

Lemma expire_badint n k a l :
  named n "expire" -> atoi (str a) = None -> (length l <= 1)%nat ->
  implements (n :: k :: a :: l) (single_fun (str k) (fun _ e => (err_int, e))).
Proof.
  intros Hn Ha Hl. intros now d out HI _ Hs. unfold step in Hs. revert Hs.
  rewrite (exec_named _ _ _ expire_key Hn) by reflexivity. unfold expire_key, expire_run.
  intros Hs. eexists err_int, d, (view now d). revert Hs.
  destruct l as [|w [|]]; [| |simpl in Hl; lia]; rewrite Ha;
    intros Hs; inversion Hs; subst; (split; [auto|]; split; [auto|]; split;
      [exists (view now d (str k)); split; [auto|split; auto]|intros; symmetry; apply live_view; auto]).
Qed.

Lemma expire_badopt n k a i w :
  named n "expire" -> atoi (str a) = Some i ->
  to_lower (str w) ∉ map B [""; "nx"; "xx"; "gt"; "lt"]%string ->
  implements [n; k; a; w] (single (str k) (fun _ e r e' => e' = e /\
     (r = RErr (B "Unsupported option " ++ str w) \/ (e = None /\ r = RInt 0)))).
Proof.
  intros Hn Ha Hw. apply impl_single. start Hn. unfold expire_key, expire_run.
  rewrite Ha. rewrite wp_now. cbv zeta. purge_k. destruct b.
  - rewrite (Hb eq_refl) in *. wps. fin. auto.
  - repeat match goal with |- context [beq ?w (B ?s)] =>
        replace (beq w (B s)) with false
          by (symmetry; apply bool_decide_eq_false; intros E; apply Hw; rewrite E; set_solver)
      end.
    replace (beq (to_lower (str w)) []) with false
      by (symmetry; apply bool_decide_eq_false; intros E; apply Hw; rewrite E; set_solver).
    wps. fin. auto.
Qed.

(** ** RENAME *)
Lemma rename_ok n a b : named n "rename" -> implements [n; a; b] (rename_spec (str a) (str b)).
Proof.
  intros Hn. apply impl_multi. start Hn. unfold rename_key. unfold rename_spec.
  purge_k.
  assert (Hv : forall k, view now d1 k = view now d k) by (intros; apply (sim_view now); auto; lia).
  destruct b0.
  - rewrite (Hb eq_refl) in *. wps. eexists _, _. split; [auto|]. split; [auto|].
    split; auto.
  - ent; wps.
    + (* present *)
      assert (Hl : live now (Some (v, dl)) = Some (v, dl)).
      { rewrite <- Hview, live_view; auto. lia. }
      match goal with |- context [put ?bb ?vv ?dd] => set (d2 := put bb vv dd) end.
      assert (HI2 : Inv d2).
      { unfold d2. apply inv_put. change (Inv (purge (str b) (purge (str a) d1))). auto with inv. }
      assert (Hr : forall k, raw d2 k = if decide (k = str b) then Some (v, None)
                             else if decide (k = str a) then None else raw d1 k).
      { intros k. unfold d2. change (edel (str b) (ddel (str b) (edel (str a) (ddel (str a) d1))))
          with (purge (str b) (purge (str a) d1)).
        rewrite raw_put, !raw_purge. destruct (decide (k = str b)); auto.
        unfold purge. rewrite exps_edel. auto. }
      assert (Hdb : dict d2 !! str b = Some v) by apply dict_put.
      destruct dl as [t|]; wps.
      * eexists _, _. split; [reflexivity|]. split; [apply inv_eset; eauto|].
        split; [auto|]. split; [|split].
        -- rewrite view_raw. rawsimp. rewrite Hr, decide_True; auto.
        -- intros Hne. rewrite view_raw. rewrite raw_eset, decide_False by auto.
           rewrite Hr, decide_False, decide_True; auto.
        -- intros k Hk1 Hk2. rewrite <- Hv, !view_raw. rewrite raw_eset, decide_False by auto.
           rewrite Hr, !decide_False; auto.
      * eexists _, _. split; [reflexivity|]. split; [auto|].
        split; [auto|]. split; [|split].
        -- rewrite view_raw. rewrite Hr, decide_True; auto.
        -- intros Hne. rewrite view_raw.
           rewrite Hr, decide_False, decide_True; auto.
        -- intros k Hk1 Hk2. rewrite <- Hv, !view_raw.
           rewrite Hr, !decide_False; auto.
    + eexists _, _. split; [auto|]. split; [auto|]. split; auto.
Qed.

(** ** DEL and EXISTS *)
Lemma del_loop_wp now d (ks : list val) n (f : Z -> prog rdata) Q : Inv d ->
  (forall d' , Inv d' ->
     (forall k, k ∈ map str ks -> raw d' k = None) ->
     (forall k, k ∉ map str ks -> raw d' k = raw d k) ->
     wp (eq now) d' (f (n + Z.of_nat (size (filter (fun k => view now d k <> None)
                            (list_to_set (map str ks) : gset bytes))))) Q) ->
  wp (eq now) d (pbind (del_loop ks n) f) Q.
Proof.
  revert d n. induction ks as [|k ks IH]; intros d n HI H.
  - cbn [del_loop pbind]. specialize (H d HI). cbn [map list_to_set] in H.
    replace (filter (fun k => view now d k <> None) (∅ : gset bytes)) with (∅ : gset bytes) in H by set_solver.
    rewrite size_empty, Z.add_0_r in H. apply H; auto; set_solver.
  - cbn [del_loop].
    (* the state after dealing with k *)
    assert (Hgo : forall d1 m, Inv d1 ->
      (forall k', raw d1 k' = if decide (k' = str k) then None else raw d k') ->
      m = (if decide (view now d (str k) <> None) then 1 else 0) ->
      wp (eq now) d1 (pbind (del_loop ks (n + m)) f) Q).
    { intros d1 m HI1 Hr Hm. apply IH; auto. intros d' HI' H1 H2.
      assert (Hv1 : forall k', view now d1 k' = if decide (k' = str k) then None else view now d k').
      { intros k'. rewrite !view_raw, Hr. destruct (decide (k' = str k)); auto. }
      replace (n + m + Z.of_nat (size (filter (fun k => view now d1 k <> None)
                            (list_to_set (map str ks) : gset bytes))))
         with (n + Z.of_nat (size (filter (fun k => view now d k <> None)
                            (list_to_set (map str (k :: ks)) : gset bytes)))).
      - apply H; auto.
        + intros k' Hk'. destruct (decide (k' ∈ map str ks)) as [Hi|Hi]; auto.
          rewrite H2, Hr by auto. rewrite decide_True; auto. set_solver.
        + intros k' Hk'. rewrite H2, Hr by set_solver. rewrite decide_False; auto. set_solver.
      - subst m. rewrite <- Z.add_assoc. f_equal.
        set (X := filter (fun k0 => view now d1 k0 <> None) (list_to_set (map str ks) : gset bytes)).
        destruct (decide (view now d (str k) <> None)) as [Hl|Hl].
        + replace (filter _ _) with ({[str k]} ∪ X).
          * rewrite size_union, size_singleton; [lia|]. unfold X. apply disjoint_singleton_l.
            rewrite elem_of_filter, Hv1, decide_True by auto. tauto.
          * apply set_eq. intros x. unfold X. cbn [map list_to_set].
            rewrite elem_of_union, elem_of_singleton, !elem_of_filter, elem_of_union, elem_of_singleton, Hv1.
            destruct (decide (x = str k)) as [->|]; [tauto|]. tauto.
        + replace (filter _ _) with X; [lia|].
          apply set_eq. intros x. unfold X. cbn [map list_to_set].
          rewrite !elem_of_filter, elem_of_union, elem_of_singleton, Hv1.
          destruct (decide (x = str k)) as [->|]; [tauto|]. tauto. }
    rewrite pbind_assoc, wp_purge. destruct (expired now d (str k)) eqn:E.
    + rewrite <- (Z.add_0_r n). apply Hgo; [auto with inv| |].
      * intros k'. rewrite raw_purge. auto.
      * rewrite decide_False; auto. rewrite (view_expired now d (str k)); auto.
    + rewrite pbind_assoc, wp_with_lock. wps. change (edel (str k) (ddel (str k) d)) with (purge (str k) d).
      apply Hgo; [auto with inv| |].
      * intros k'. rewrite raw_purge. auto.
      * rewrite view_notexpired by auto. unfold raw. destruct (dict d !! str k); cbn [hasb].
        -- rewrite decide_True; auto.
        -- rewrite decide_False; auto.
Qed.

Lemma del_ok n ks : named n "del" -> ks <> [] -> implements (n :: ks) (del_spec (map str ks)).
Proof.
  intros Hn Hks. apply impl_multi. intros now d HI _.
  rewrite (exec_named _ _ _ del_key Hn) by reflexivity.
  destruct ks as [|k ks]; [congruence|]. unfold del_key.
  apply del_loop_wp; auto. intros d' HI' H1 H2. wps.
  eexists _, _. split; [reflexivity|]. split; [auto|]. split; [auto|]. split.
  - intros k' Hk'. rewrite view_raw, H1; auto.
  - intros k' Hk'. rewrite !view_raw, H2; auto.
Qed.

Lemma exists_loop_wp now d (ks : list val) n (f : Z -> prog rdata) Q : Inv d ->
  (forall d' , Inv d' -> sim now d' d ->
     wp (eq now) d' (f (n + Z.of_nat (length (filter (fun k => view now d k <> None) (map str ks))))) Q) ->
  wp (eq now) d (pbind (exists_loop ks n) f) Q.
Proof.
  revert d n. induction ks as [|k ks IH]; intros d n HI H.
  - cbn [exists_loop pbind]. specialize (H d HI (sim_refl _ _)). cbn in H. rewrite Z.add_0_r in H. auto.
  - cbn [exists_loop]. rewrite pbind_assoc. purge_k.
    assert (Hgo : forall m, m = (if decide (view now d (str k) <> None) then 1 else 0) ->
       wp (eq now) d1 (pbind (exists_loop ks (n + m)) f) Q).
    { intros m Hm. apply IH; auto. intros d' HI' Hs'.
      replace (n + m + Z.of_nat (length (filter (fun k => view now d1 k <> None) (map str ks))))
        with (n + Z.of_nat (length (filter (fun k => view now d k <> None) (map str (k :: ks))))).
      - apply H; auto. eapply sim_trans; eauto.
      - subst m. rewrite <- Z.add_assoc. f_equal. cbn [map]. rewrite filter_cons.
        rewrite (list_filter_iff (fun k => view now d1 k <> None) (fun k => view now d k <> None)).
        2:{ intros x. rewrite (sim_view now d1 d) by (auto; lia). tauto. }
        destruct (decide (view now d (str k) <> None)); cbn [length]; lia. }
    destruct b.
    + rewrite <- (Z.add_0_r n). apply Hgo. rewrite decide_False; auto.
    + rewrite pbind_assoc, wp_with_lock. wps. apply Hgo.
      rewrite <- Hraw. unfold raw. destruct (dict d1 !! str k).
      * rewrite decide_True; auto.
      * rewrite decide_False; auto.
Qed.

Lemma exists_ok n ks : named n "exists" -> ks <> [] -> implements (n :: ks) (exists_spec (map str ks)).
Proof.
  intros Hn Hks. apply impl_multi. intros now d HI _.
  rewrite (exec_named _ _ _ exists_key Hn) by reflexivity.
  destruct ks as [|k ks]; [congruence|]. unfold exists_key.
  apply exists_loop_wp; auto. intros d' HI' H1. wps.
  eexists _, _. split; [reflexivity|]. split; [auto|]. split; [auto|].
  intros k'. apply (sim_view now); auto; lia.
Qed.

End WithParams.
