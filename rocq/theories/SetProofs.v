(** Proofs about SET options, MSET and MGET (memdb/strings.go). *)
From Verif Require Import WpTac StringsProofs.

(** The options of SET as they are read; like [spells], but EX takes whatever ParseInt returns. *)
Inductive sreads : list val -> list setopt -> Prop :=
| sr_nil : sreads [] []
| sr_nx a l os : named a "nx" -> sreads l os -> sreads (a :: l) (ONx :: os)
| sr_xx a l os : named a "xx" -> sreads l os -> sreads (a :: l) (OXx :: os)
| sr_get a l os : named a "get" -> sreads l os -> sreads (a :: l) (OGet :: os)
| sr_keep a l os : named a "keepttl" -> sreads l os -> sreads (a :: l) (OKeep :: os)
| sr_ex a m n l os : named a "ex" -> fst (parse_int (str m)) = n -> sreads l os -> sreads (a :: m :: l) (OEx n :: os)
| sr_px a m n l os : named a "px" -> atoi (str m) = Some n -> sreads l os -> sreads (a :: m :: l) (OPx n :: os).
Lemma spells_sreads l os : spells l os -> sreads l os.
Proof.
  induction 1; try (constructor; auto; fail). constructor; auto.
  unfold atoi in *. destruct (parse_int (str _)) as [? [?|]]; [discriminate|]. cbn; congruence.
Qed.

Lemma set_opts_spells l os : sreads l os -> forall o, exists o',
  set_opts l o = SP_ok o' /\
  o_nx o' = o_nx o || bool_decide (ONx ∈ os) /\
  o_xx o' = o_xx o || bool_decide (OXx ∈ os) /\
  o_get o' = o_get o || bool_decide (OGet ∈ os) /\
  o_keepttl o' = o_keepttl o || bool_decide (OKeep ∈ os) /\
  o_num o' = (o_num o + length (List.filter is_expiry_opt os))%nat /\
  match o_ex o' with
  | Some n => o_ex o = Some n \/ OEx n ∈ os
  | None => o_ex o = None /\ forall n, OEx n ∉ os
  end /\
  match o_px o' with
  | Some n => o_px o = Some n \/ OPx n ∈ os
  | None => o_px o = None /\ forall n, OPx n ∉ os
  end.
Proof.
  induction 1 as [|a l os Ha Hs IH|a l os Ha Hs IH|a l os Ha Hs IH|a l os Ha Hs IH
    |a m n l os Ha Hm Hs IH|a m n l os Ha Hm Hs IH]; intros o.
  - exists o. split; [auto|]. rewrite !bool_decide_eq_false_2 by set_solver.
    rewrite !orb_false_r. simpl. split; [auto|]. split; [auto|]. split; [auto|]. split; [auto|].
    split; [lia|]. split; [destruct (o_ex o)|destruct (o_px o)]; auto; split; auto; set_solver.
  - unfold named in Ha. cbn [set_opts]. rewrite Ha. beqs.
    match goal with |- context [set_opts l ?o0] => destruct (IH o0) as (o' & H0 & H1 & H2 & H3 & H4 & H5 & H6 & H7) end.
    exists o'. split; [auto|]. cbn [o_nx o_xx o_get o_keepttl o_num o_ex o_px] in *.
    rewrite H1, H2, H3, H4, H5. cbn [List.filter is_expiry_opt length].
    split; [symmetry; rewrite (bool_decide_eq_true_2 (ONx ∈ _)) by set_solver; apply orb_true_r|].
    split; [f_equal; apply bool_decide_ext; set_solver|].
    split; [f_equal; apply bool_decide_ext; set_solver|].
    split; [f_equal; apply bool_decide_ext; set_solver|].
    split; [lia|]. split; [destruct (o_ex o')|destruct (o_px o')]; set_solver.
  - unfold named in Ha. cbn [set_opts]. rewrite Ha. beqs.
    match goal with |- context [set_opts l ?o0] => destruct (IH o0) as (o' & H0 & H1 & H2 & H3 & H4 & H5 & H6 & H7) end.
    exists o'. split; [auto|]. cbn [o_nx o_xx o_get o_keepttl o_num o_ex o_px] in *.
    rewrite H1, H2, H3, H4, H5. cbn [List.filter is_expiry_opt length].
    split; [f_equal; apply bool_decide_ext; set_solver|].
    split; [symmetry; rewrite (bool_decide_eq_true_2 (OXx ∈ _)) by set_solver; apply orb_true_r|].
    split; [f_equal; apply bool_decide_ext; set_solver|].
    split; [f_equal; apply bool_decide_ext; set_solver|].
    split; [lia|]. split; [destruct (o_ex o')|destruct (o_px o')]; set_solver.
  - unfold named in Ha. cbn [set_opts]. rewrite Ha. beqs.
    match goal with |- context [set_opts l ?o0] => destruct (IH o0) as (o' & H0 & H1 & H2 & H3 & H4 & H5 & H6 & H7) end.
    exists o'. split; [auto|]. cbn [o_nx o_xx o_get o_keepttl o_num o_ex o_px] in *.
    rewrite H1, H2, H3, H4, H5. cbn [List.filter is_expiry_opt length].
    split; [f_equal; apply bool_decide_ext; set_solver|].
    split; [f_equal; apply bool_decide_ext; set_solver|].
    split; [symmetry; rewrite (bool_decide_eq_true_2 (OGet ∈ _)) by set_solver; apply orb_true_r|].
    split; [f_equal; apply bool_decide_ext; set_solver|].
    split; [lia|]. split; [destruct (o_ex o')|destruct (o_px o')]; set_solver.
  - unfold named in Ha. cbn [set_opts]. rewrite Ha. beqs.
    match goal with |- context [set_opts l ?o0] => destruct (IH o0) as (o' & H0 & H1 & H2 & H3 & H4 & H5 & H6 & H7) end.
    exists o'. split; [auto|]. cbn [o_nx o_xx o_get o_keepttl o_num o_ex o_px] in *.
    rewrite H1, H2, H3, H4, H5. cbn [List.filter is_expiry_opt length].
    split; [f_equal; apply bool_decide_ext; set_solver|].
    split; [f_equal; apply bool_decide_ext; set_solver|].
    split; [f_equal; apply bool_decide_ext; set_solver|].
    split; [symmetry; rewrite (bool_decide_eq_true_2 (OKeep ∈ _)) by set_solver; apply orb_true_r|].
    split; [lia|]. split; [destruct (o_ex o')|destruct (o_px o')]; set_solver.
  - unfold named in Ha. cbn [set_opts]. rewrite Ha. beqs.
    rewrite Hm.
    match goal with |- context [set_opts l ?o0] => destruct (IH o0) as (o' & H0 & H1 & H2 & H3 & H4 & H5 & H6 & H7) end.
    exists o'. split; [auto|]. cbn [o_nx o_xx o_get o_keepttl o_num o_ex o_px fst] in *.
    rewrite H1, H2, H3, H4, H5. cbn [List.filter is_expiry_opt length].
    split; [f_equal; apply bool_decide_ext; set_solver|].
    split; [f_equal; apply bool_decide_ext; set_solver|].
    split; [f_equal; apply bool_decide_ext; set_solver|].
    split; [f_equal; apply bool_decide_ext; set_solver|].
    split; [lia|]. split; [destruct (o_ex o')|destruct (o_px o')].
    + destruct H6 as [[= ->]|H6]; set_solver.
    + destruct H6; discriminate.
    + set_solver.
    + set_solver.
  - unfold named in Ha. cbn [set_opts]. rewrite Ha. beqs.
    unfold atoi in Hm. destruct (parse_int (str m)) as [x [?|]]; [discriminate|]. injection Hm as ->.
    match goal with |- context [set_opts l ?o0] => destruct (IH o0) as (o' & H0 & H1 & H2 & H3 & H4 & H5 & H6 & H7) end.
    exists o'. split; [auto|]. cbn [o_nx o_xx o_get o_keepttl o_num o_ex o_px fst] in *.
    rewrite H1, H2, H3, H4, H5. cbn [List.filter is_expiry_opt length].
    split; [f_equal; apply bool_decide_ext; set_solver|].
    split; [f_equal; apply bool_decide_ext; set_solver|].
    split; [f_equal; apply bool_decide_ext; set_solver|].
    split; [f_equal; apply bool_decide_ext; set_solver|].
    split; [lia|]. split; [destruct (o_ex o')|destruct (o_px o')].
    + set_solver.
    + set_solver.
    + destruct H7 as [[= ->]|H7]; set_solver.
    + destruct H7; discriminate.
Qed.

(** At most one expiry option: two of them in the list are the same one. *)
Lemma one_expiry os a b :
  (length (List.filter is_expiry_opt os) <= 1)%nat ->
  a ∈ os -> b ∈ os -> is_expiry_opt a = true -> is_expiry_opt b = true -> a = b.
Proof.
  intros Hl Ha Hb Ea Eb.
  assert (Ha' : a ∈ List.filter is_expiry_opt os) by (apply elem_of_list_In, filter_In; rewrite <- elem_of_list_In; auto).
  assert (Hb' : b ∈ List.filter is_expiry_opt os) by (apply elem_of_list_In, filter_In; rewrite <- elem_of_list_In; auto).
  destruct (List.filter is_expiry_opt os) as [|x [|y l]]; simpl in Hl; [set_solver|set_solver|lia].
Qed.
Lemma no_expiry os a : List.filter is_expiry_opt os = [] -> a ∈ os -> is_expiry_opt a = false.
Proof.
  intros H Ha. destruct (is_expiry_opt a) eqn:E; auto.
  assert (Ha' : a ∈ List.filter is_expiry_opt os) by (apply elem_of_list_In, filter_In; rewrite <- elem_of_list_In; auto).
  rewrite H in Ha'. set_solver.
Qed.

Lemma deadline_of os now (old : option Z) (exo pxo : option Z) (keep : bool) :
  setopts_ok os ->
  keep = bool_decide (OKeep ∈ os) ->
  match exo with Some n => OEx n ∈ os | None => forall n, OEx n ∉ os end ->
  match pxo with Some n => OPx n ∈ os | None => forall n, OPx n ∉ os end ->
  set_deadline os now old
    (match pxo with
     | Some n => Some (wrap64 (now + Z.quot n 1000))
     | None => match exo with
               | Some n => Some (wrap64 (now + n))
               | None => if keep then old else None
               end
     end).
Proof.
  intros [Hl _] Hk Hex Hpx. unfold set_deadline. split; [|split; [|split]].
  - intros n Hn. destruct pxo as [m|].
    { pose proof (one_expiry os _ _ Hl Hn Hpx eq_refl eq_refl). discriminate. }
    destruct exo as [m|]; [|elim (Hex n Hn)].
    pose proof (one_expiry os _ _ Hl Hn Hex eq_refl eq_refl). congruence.
  - intros n Hn. destruct pxo as [m|]; [|elim (Hpx n Hn)].
    pose proof (one_expiry os _ _ Hl Hn Hpx eq_refl eq_refl). congruence.
  - intros Hn. destruct pxo as [m|].
    { pose proof (one_expiry os _ _ Hl Hn Hpx eq_refl eq_refl). discriminate. }
    destruct exo as [m|].
    { pose proof (one_expiry os _ _ Hl Hn Hex eq_refl eq_refl). discriminate. }
    rewrite Hk, bool_decide_eq_true_2; auto.
  - intros Hn. destruct pxo as [m|]; [pose proof (no_expiry _ _ Hn Hpx); discriminate|].
    destruct exo as [m|]; [pose proof (no_expiry _ _ Hn Hex); discriminate|].
    rewrite Hk, bool_decide_eq_false_2; auto. intros Hin.
    pose proof (no_expiry _ _ Hn Hin); discriminate.
Qed.

Section WithParams.
Context {P : Setup}.

Lemma set_wp now d n k v l os :
  named n "set" -> sreads l os -> setopts_ok os -> Inv d ->
  wp (eq now) d (exec_in_db (n :: k :: v :: l)) (fun out =>
       exists r d', out = Done r d' /\ Inv d' /\ set_spec os v now (view now d (str k)) r (raw d' (str k)) /\
         forall k', k' <> str k -> raw d' k' = raw d k').
Proof.
  intros Hn Hs Hok HI. exec_cmd Hn. unfold set_string.
  purge_k. destruct (set_opts_spells l os Hs no_opts) as (o & -> & H1 & H2 & H3 & H4 & H5 & H6 & H7).
  cbn [no_opts o_nx o_xx o_get o_keepttl o_num o_ex o_px orb] in *.
  destruct Hok as [Hlen Hnx]. pose proof (conj Hlen Hnx : setopts_ok os) as Hok.
  replace ((o_nx o && o_xx o) || Nat.ltb 1 (o_num o)) with false.
  2:{ symmetry. apply orb_false_iff. split.
      - rewrite H1, H2. apply andb_false_iff. rewrite !bool_decide_eq_false.
        destruct (decide (ONx ∈ os)); auto.
      - apply Nat.ltb_ge. lia. }
  assert (Hdl : forall old : option Z, set_deadline os now old (match o_px o with
     | Some n => Some (wrap64 (now + Z.quot n 1000))
     | None => match o_ex o with
               | Some n => Some (wrap64 (now + n))
               | None => if o_keepttl o then old else None
               end
     end)).
  { intros old. apply deadline_of; auto.
    - destruct (o_ex o); [destruct H6 as [?|?]; [discriminate|auto]|apply H6].
    - destruct (o_px o); [destruct H7 as [?|?]; [discriminate|auto]|apply H7]. }
  assert (Hwf : Nat.lt (o_num o) 2) by lia.
  unfold set_spec.
  ent.
  - wps. destruct v0 as [s| | |]; cbv zeta; wps; try (fin; split; auto; fail).
    specialize (Hdl dl).
    replace (bool_decide (ONx ∈ os)) with (if decide (ONx ∈ os) then true else false) in H1
      by (destruct (decide (ONx ∈ os)); [rewrite bool_decide_eq_true_2|rewrite bool_decide_eq_false_2]; auto).
    replace (bool_decide (OGet ∈ os)) with (if decide (OGet ∈ os) then true else false) in H3
      by (destruct (decide (OGet ∈ os)); [rewrite bool_decide_eq_true_2|rewrite bool_decide_eq_false_2]; auto).
    rewrite H1, H3. destruct (decide (ONx ∈ os)), (decide (OGet ∈ os)), (o_xx o);
      cbn [negb]; wps; destruct (o_keepttl o); wps; destruct (o_ex o); wps; destruct (o_px o); wps; fin;
      (eexists; split; [reflexivity|split; [|reflexivity]]); assumption.
  - wps. cbv zeta.
    specialize (Hdl None).
    replace (bool_decide (OXx ∈ os)) with (if decide (OXx ∈ os) then true else false) in H2
      by (destruct (decide (OXx ∈ os)); [rewrite bool_decide_eq_true_2|rewrite bool_decide_eq_false_2]; auto).
    replace (bool_decide (OGet ∈ os)) with (if decide (OGet ∈ os) then true else false) in H3
      by (destruct (decide (OGet ∈ os)); [rewrite bool_decide_eq_true_2|rewrite bool_decide_eq_false_2]; auto).
    assert (Hnx' : o_xx o = true -> o_nx o = false).
    { rewrite H1, H2. destruct (decide (OXx ∈ os)); [intros _|discriminate].
      apply bool_decide_eq_false. intros ?. apply Hnx; auto. }
    rewrite H2 in *. rewrite H3.
    destruct (decide (OXx ∈ os)).
    + rewrite Hnx' by auto. cbn [negb].
      destruct (decide (OGet ∈ os)); wps; destruct (o_keepttl o); wps; destruct (o_ex o); wps; destruct (o_px o); wps; fin; auto.
    + destruct (o_nx o), (decide (OGet ∈ os)); cbn [negb]; wps; destruct (o_keepttl o); wps; destruct (o_ex o); wps; destruct (o_px o); wps; fin;
      (eexists; split; [reflexivity|split; [|reflexivity]]); assumption.
Qed.

Lemma set_ok n k v l os :
  named n "set" -> spells l os -> setopts_ok os ->
  implements (n :: k :: v :: l) (single (str k) (set_spec os v)).
Proof. intros Hn Hs Hok. apply impl_single. intros now d HI _. apply set_wp; auto using spells_sreads. Qed.

Lemma set_syntax_wp now d n k v l os :
  named n "set" -> sreads l os -> ~ setopts_ok os -> Inv d ->
  wp (eq now) d (exec_in_db (n :: k :: v :: l)) (fun out =>
       exists r d', out = Done r d' /\ Inv d' /\ (r, raw d' (str k)) = (err_syntax, view now d (str k)) /\
         forall k', k' <> str k -> raw d' k' = raw d k').
Proof.
  intros Hn Hs Hok HI. exec_cmd Hn. unfold set_string.
  purge_k. destruct (set_opts_spells l os Hs no_opts) as (o & -> & H1 & H2 & H3 & H4 & H5 & H6 & H7).
  cbn [no_opts o_nx o_xx o_get o_keepttl o_num o_ex o_px orb] in *.
  replace ((o_nx o && o_xx o) || Nat.ltb 1 (o_num o)) with true.
  2:{ symmetry. apply orb_true_iff. rewrite andb_true_iff, H1, H2, !bool_decide_eq_true, Nat.ltb_lt, H5.
      unfold setopts_ok in Hok.
      destruct (decide (ONx ∈ os)), (decide (OXx ∈ os)); auto;
      right; (destruct (decide (length (List.filter is_expiry_opt os) <= 1)%nat); [|lia]);
      elim Hok; tauto. }
  wps. fin.
Qed.
Lemma set_syntax n k v l os :
  named n "set" -> spells l os -> ~ setopts_ok os ->
  implements (n :: k :: v :: l) (single_fun (str k) (fun _ e => (err_syntax, e))).
Proof. intros Hn Hs Hok. apply impl_single_fun. intros now d HI _. eapply set_syntax_wp; eauto using spells_sreads. Qed.

Lemma set_opts_unsupported l os : sreads l os -> forall a rest o,
  to_lower (str a) ∉ map B ["nx"; "xx"; "get"; "ex"; "px"; "exat"; "pxat"; "keepttl"]%string ->
  set_opts (l ++ a :: rest) o = SP_err (RErr (B "Unsupported option " ++ str a)).
Proof.
  intros Hs a rest. induction Hs as [|x l os Hx Hs IH|x l os Hx Hs IH|x l os Hx Hs IH|x l os Hx Hs IH
    |x m n l os Hx Hm Hs IH|x m n l os Hx Hm Hs IH]; intros o Ha; unfold named in *.
  1:{ cbn [app set_opts].
      repeat match goal with |- context [beq ?w (B ?s)] =>
        replace (beq w (B s)) with false
          by (symmetry; apply bool_decide_eq_false; intros E; apply Ha; rewrite E; set_solver)
      end. reflexivity. }
  all: cbn [app set_opts]; rewrite Hx; beqs; try (apply IH; auto; fail).
  unfold atoi in Hm. destruct (parse_int (str m)) as [? [?|]]; [discriminate|]. apply IH; auto.
Qed.
Lemma set_opts_at l os : sreads l os -> forall a rest o,
  named a "exat" \/ named a "pxat" -> set_opts (l ++ a :: rest) o = SP_err err_int.
Proof.
  intros Hs a rest. induction Hs as [|x l os Hx Hs IH|x l os Hx Hs IH|x l os Hx Hs IH|x l os Hx Hs IH
    |x m n l os Hx Hm Hs IH|x m n l os Hx Hm Hs IH]; intros o Ha; unfold named in *.
  2-7: cbn [app set_opts]; rewrite Hx; beqs; try (apply IH; auto; fail).
  2:{ unfold atoi in Hm. destruct (parse_int (str m)) as [? [?|]]; [discriminate|]. apply IH; auto. }
  cbn [app set_opts].
  assert (E : exists y z, str a = y :: z /\ (code y <> 43 /\ code y <> 45 /\ ~ (48 <= code y <= 57))%N).
  { destruct (str a) as [|y z]; [destruct Ha; discriminate|]. exists y, z. split; auto.
    assert (Hy : to_lower (y :: z) = B "exat" \/ to_lower (y :: z) = B "pxat") by auto. clear Ha.
    assert (Hl : lower_ascii y = "e"%char \/ lower_ascii y = "p"%char).
    { cbn [to_lower] in Hy. destruct z as [|y2 z].
      - destruct Hy; discriminate.
      - destruct ((code y =? 196)%N && (code y2 =? 176)%N).
        + destruct Hy as [Hy|Hy]; vm_compute in Hy; discriminate.
        + destruct z as [|y3 z]; [destruct Hy as [[= Hy]|[= Hy]]; discriminate|].
          destruct ((code y =? 226)%N && (code y2 =? 132)%N && (code y3 =? 170)%N).
          * destruct Hy as [Hy|Hy]; injection Hy; discriminate.
          * destruct Hy as [Hy|Hy]; injection Hy; auto. }
    clear Hy. destruct y as [[] [] [] [] [] [] [] []]; vm_compute in Hl;
      try (destruct Hl; discriminate); vm_compute; intuition discriminate. }
  destruct E as (y & z & E & Hy1 & Hy2 & Hy3).
  assert (Hp : parse_int (str a) = (0, Some ErrSyntax)).
  { rewrite E. unfold parse_int.
    destruct (N.eqb_spec (code y) 43); [tauto|]. destruct (N.eqb_spec (code y) 45); [tauto|].
    unfold parse_signed, parse_uint. cbn [parse_uint_loop]. unfold digit.
    replace ((48 <=? Z.of_N (code y)) && (Z.of_N (code y) <=? 57)) with false; auto.
    symmetry. apply andb_false_iff. rewrite !Z.leb_gt. lia. }
  rewrite Hp. destruct Ha as [Ha|Ha]; rewrite Ha; beqs; reflexivity.
Qed.

(** An option that is not recognised (or EXAT/PXAT, which this server never accepts). *)
Lemma set_badopt n k v l os a rest :
  named n "set" -> spells l os ->
  to_lower (str a) ∉ map B ["nx"; "xx"; "get"; "ex"; "px"; "keepttl"]%string ->
  implements (n :: k :: v :: l ++ a :: rest)
    (single (str k) (fun _ e r e' => e' = e /\ exists m, r = RErr m)).
Proof.
  intros Hn Hs%spells_sreads Ha. apply impl_single. start Hn. unfold set_string. clear Hpre. purge_k.
  destruct (decide (to_lower (str a) = B "exat" \/ to_lower (str a) = B "pxat")) as [Hat|Hat].
  - rewrite (set_opts_at _ _ Hs) by auto. wps. fin. split; eauto.
  - rewrite (set_opts_unsupported _ _ Hs). { wps. fin. split; eauto. }
    unfold named in Hat. intros Hin. apply Ha. cbn [map] in *. set_solver.
Qed.

(** ** MSET *)
Lemma pairs_of_flat ps : pairs_of (flat ps) = Some (map (fun p => (str p.1, p.2)) ps).
Proof.
  induction ps as [|[k v] ps IH]; auto. unfold flat in *. cbn [map concat app pairs_of].
  rewrite IH. reflexivity.
Qed.

Lemma mset_loop_wp T d (ps : list (bytes * val)) (f : unit -> prog rdata) Q : Inv d ->
  (forall d', Inv d' ->
     (forall l1 k v l2, ps = l1 ++ (k, v) :: l2 -> k ∉ l2.*1 -> raw d' k = Some (VStr v, None)) ->
     (forall k, k ∉ ps.*1 -> raw d' k = raw d k) -> wp T d' (f tt) Q) ->
  wp T d (pbind (mset_loop ps) f) Q.
Proof.
  revert d. induction ps as [|[k v] ps IH]; intros d HI H.
  - cbn [mset_loop pbind]. apply H; auto. intros [] ????; discriminate.
  - cbn [mset_loop]. wps. apply IH; [auto with inv|].
    intros d' HI' H1 H2. apply H; auto.
    + intros l1 k1 v1 l2 E Hn. destruct l1 as [|[k2 v2] l1]; injection E; intros; subst.
      * rewrite H2 by auto. rawsimp. auto.
      * eapply H1; eauto.
    + intros k1 Hk1. rewrite fmap_cons in Hk1. cbn in Hk1.
      rewrite H2 by set_solver. assert (k1 <> k) by set_solver. rawsimp. auto.
Qed.

Lemma mset_ok n ps : named n "mset" -> ps <> [] -> implements (n :: flat ps) (mset_spec ps).
Proof.
  intros Hn Hps. apply impl_multi. intros now d HI _.
  destruct ps as [|[k v] ps]; [congruence|]. clear Hps.
  rewrite (exec_named _ _ _ mset_string Hn) by reflexivity.
  change (flat ((k, v) :: ps)) with (k :: v :: flat ps). unfold mset_string.
  change (k :: v :: flat ps) with (flat ((k, v) :: ps)). rewrite pairs_of_flat.
  rewrite wp_mlock_bare. apply mset_loop_wp; auto. intros d' HI' H1 H2. wps.
  eexists _, _. split; [reflexivity|]. split; [auto|]. split; [auto|]. split.
  - intros l1 k1 v1 l2 E Hn'. rewrite view_raw, (H1 (map (fun p => (str p.1, p.2)) l1) (str k1) v1 (map (fun p => (str p.1, p.2)) l2)); auto.
    + rewrite E. rewrite map_app. reflexivity.
    + rewrite <- list_fmap_compose. exact Hn'.
  - intros k1 Hk1. rewrite !view_raw, H2; auto.
    change (map ?f ?l) with (f <$> l) at 1. rewrite <- list_fmap_compose. exact Hk1.
Qed.

(** ** MGET *)
Lemma expired_unexpired now d k : unexpired now d k -> expired now d k = false.
Proof.
  unfold unexpired, expired. destruct (exps d !! k); auto. intros H. apply Z.ltb_ge. auto.
Qed.

Lemma mget_loop_wp now d ks acc (f : list rdata -> prog rdata) Q :
  (forall k, k ∈ ks -> unexpired now d (str k)) ->
  wp (eq now) d (f (acc ++ map (mget_one (view now d)) ks)) Q ->
  wp (eq now) d (pbind (mget_loop ks acc) f) Q.
Proof.
  revert acc. induction ks as [|k ks IH]; intros acc Hu H.
  - cbn [map] in H. rewrite app_nil_r in H. exact H.
  - cbn [mget_loop]. rewrite pbind_assoc, wp_purge, (expired_unexpired now d (str k)) by (apply Hu; left).
    rewrite pbind_assoc, wp_with_lock. wps.
    assert (E : mget_one (view now d) k = match dict d !! str k with Some (VStr s) => RBulk s | _ => rnil end).
    { unfold mget_one. rewrite view_notexpired by (apply expired_unexpired, Hu; left). unfold raw.
      destruct (dict d !! str k) as [[]|]; auto. }
    cbn [map] in H. rewrite E in H. rewrite (cons_middle _ acc), app_assoc in H.
    destruct (dict d !! str k) as [[]|]; wps; apply IH; auto; intros; apply Hu; right; auto.
Qed.

Lemma mget_ok n ks : named n "mget" -> ks <> [] ->
  implements_on (fun now d => forall k, k ∈ ks -> unexpired now d (str k)) (n :: ks) (mget_spec ks).
Proof.
  intros Hn Hks. apply impl_multi. intros now d HI Hu.
  rewrite (exec_named _ _ _ mget_string Hn) by reflexivity.
  destruct ks as [|k ks]; [congruence|]. unfold mget_string.
  apply mget_loop_wp; auto. wps. eexists _, _. split; [reflexivity|]. split; [auto|].
  split; auto. intros ?; auto.
Qed.

End WithParams.
