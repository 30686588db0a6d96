(** Exactly when a command panics or loops for ever. *)
From Verif Require Export SafeCmds HashProofs SetCmdProofs GlobKeys.

Section WithParams.
Context {P : Setup}.
(** The verdict on an outcome. *)
Definition cq (X : Prop) (out : outcome rdata) : Prop := match out with Crashes _ => X | _ => ~ X end.
Lemma cq_iff X out : cq X out -> (X <-> exists d, out = Crashes d).
Proof. destruct out as [r d|d|d]; cbn; intros H; split; try tauto; intros; eauto; destruct H0 as [? [=]]. Qed.
Lemma cq_same X Y out : (X <-> Y) -> cq X out -> cq Y out.
Proof. destruct out; cbn; tauto. Qed.
Lemma cq_quiet X T d p : ~ X -> (forall out, runs T d p out -> forall d', out <> Crashes d') -> wp T d p (cq X).
Proof. intros HX H. apply wp_iff. intros out Ho. specialize (H out Ho). destruct out; cbn; auto. exfalso. eapply H. reflexivity. Qed.
Lemma calm_quiet X T d p : ~ X -> calm false true p -> wp T d p (cq X).
Proof.
  intros HX H. apply cq_quiet; auto. intros out Ho d' ->. destruct (safe_runs T d p _ Ho false true [] ∅) as [H1 _].
  - apply calm_safe. exact H.
  - intros k y Hy. rewrite lookup_empty in Hy. discriminate.
  - intros k y Hy. rewrite lookup_empty in Hy. discriminate.
  - specialize (H1 d' eq_refl). discriminate.
Qed.

(** ** SET *)
Lemma dangling_inv a r : dangling (a :: r) ->
  (r = [] /\ (named a "ex" \/ named a "px")) \/ (dangling r /\ (named a "nx" \/ named a "xx" \/ named a "get" \/ named a "keepttl")) \/
  ((exists v r', r = v :: r' /\ dangling r') /\ named a "ex") \/ ((exists v r' i, r = v :: r' /\ atoi (str v) = Some i /\ dangling r') /\ named a "px").
Proof. intros H. inversion H as [? H'|? ? H'|? ? ? H'|? ? ? ? H' Hi]; subst; eauto 12. Qed.
Ltac dg Hi E :=
  let H := fresh "H" in let F := fresh "F" in
  intros H; apply dangling_inv in H as [[-> F]|[[H F]|[[(? & ? & -> & H) F]|[(? & ? & ? & -> & ? & H) F]]]];
  unfold named in F; rewrite E in F; repeat destruct F as [F|F]; try discriminate F; auto.
Lemma opts_crash args : forall o, set_opts args o = SP_crash <-> dangling args.
Proof.
  remember (length args) as n eqn:E. revert args E. induction n as [n IH] using lt_wf_ind. intros args E o.
  destruct args as [|a r]; cbn [set_opts].
  { split; [discriminate|]. intros H. inversion H. }
  cbn in E.
  assert (Hr : forall o', set_opts r o' = SP_crash <-> dangling r) by (intros o'; eapply (IH (length r)); auto; lia).
  assert (Hr2 : forall b r' o', r = b :: r' -> set_opts r' o' = SP_crash <-> dangling r').
  { intros b r' o' ->. eapply (IH (length r')); auto. cbn in E. lia. }
  clear IH E. unfold beq.
  destruct (bool_decide (_ = B "nx")) eqn:E1; [apply bool_decide_eq_true in E1|apply bool_decide_eq_false in E1].
  { rewrite Hr. split; [intros H; apply dg_flag; auto|dg Hi E1]. }
  destruct (bool_decide (_ = B "xx")) eqn:E2; [apply bool_decide_eq_true in E2|apply bool_decide_eq_false in E2].
  { rewrite Hr. split; [intros H; apply dg_flag; auto|dg Hi E2]. }
  destruct (bool_decide (_ = B "get")) eqn:E3; [apply bool_decide_eq_true in E3|apply bool_decide_eq_false in E3].
  { rewrite Hr. split; [intros H; apply dg_flag; auto|dg Hi E3]. }
  destruct (bool_decide (_ = B "ex")) eqn:E4; [apply bool_decide_eq_true in E4|apply bool_decide_eq_false in E4].
  { destruct r as [|b r']; [split; auto; intros _; apply dg_last; auto|]. rewrite (Hr2 b r') by reflexivity.
    split; [intros H; apply dg_ex; auto|]. intros H; apply dangling_inv in H as [[? F]|[[H F]|[[(? & ? & [= -> ->] & H) F]|[_ F]]]]; try discriminate; auto;
    unfold named in F; rewrite E4 in F; repeat destruct F as [F|F]; discriminate F. }
  destruct (bool_decide (_ = B "px")) eqn:E5; [apply bool_decide_eq_true in E5|apply bool_decide_eq_false in E5].
  { destruct r as [|b r']; [split; auto; intros _; apply dg_last; auto|].
    assert (Hd : dangling (a :: b :: r') -> atoi (str b) <> None /\ dangling r').
    { intros H; apply dangling_inv in H as [[? F]|[[H F]|[[(? & ? & [= -> ->] & H) F]|[(? & ? & ? & [= <- <-] & H1 & H2) F]]]]; try discriminate; auto;
      try (unfold named in F; rewrite E5 in F; repeat destruct F as [F|F]; discriminate F). split; congruence. }
    assert (Hx : forall i, atoi (str b) = Some i -> dangling r' -> dangling (a :: b :: r')) by (intros i Hi H; exact (dg_px a b r' i E5 Hi H)).
    unfold atoi in Hd, Hx. destruct (parse_int (str b)) as [v [e|]].
    - split; [discriminate|]. intros H; destruct (Hd H); congruence.
    - rewrite (Hr2 b r') by reflexivity. split; [apply (Hx v eq_refl)|apply Hd]. }
  assert (Hno : dangling (a :: r) -> to_lower (str a) = B "keepttl").
  { intros H; apply dangling_inv in H as [[_ F]|[[_ F]|[[_ F]|[_ F]]]]; unfold named in F; intuition congruence. }
  destruct (bool_decide (_ = B "exat") || bool_decide (_ = B "pxat")) eqn:E6.
  { assert (Hk : to_lower (str a) <> B "keepttl") by (intros F; rewrite F in E6; vm_compute in E6; discriminate).
    destruct (parse_int _) as [? [|]]; split; try discriminate; intros H; destruct (Hk (Hno H)). }
  destruct (bool_decide (_ = B "keepttl")) eqn:E7; [apply bool_decide_eq_true in E7|apply bool_decide_eq_false in E7].
  { rewrite Hr. split; [intros H; apply dg_flag; auto|dg Hi E7]. }
  split; [discriminate|]. intros H. destruct (E7 (Hno H)).
Qed.
Lemma set_exact now d n args : wp (eq now) d (set_string (n :: args)) (cq (panics_set args)).
Proof.
  destruct args as [|k [|v os]]; try (cbn [set_string wp cq]; intros (? & ? & ? & ? & _); discriminate).
  destruct (set_opts os no_opts) as [o|e|] eqn:E.
  3:{ unfold set_string. cbv zeta. rewrite wp_purge. rewrite E. cbn [wp cq]. apply opts_crash in E.
      destruct (expired now d (str k)); exists k, v, os; auto. }
  - apply calm_quiet.
    + intros (? & ? & ? & F & H). injection F as -> -> ->. apply (opts_crash _ no_opts) in H. congruence.
    + unfold set_string. cbv zeta. apply (cm_loose false false); [discriminate..|]. apply calm_bind; [apply cm_purge|]. intros _. rewrite E. clear E. cm_cmd.
  - apply calm_quiet.
    + intros (? & ? & ? & F & H). injection F as -> -> ->. apply (opts_crash _ no_opts) in H. congruence.
    + unfold set_string. cbv zeta. apply calm_bind; [apply (cm_loose false false); [discriminate..|apply cm_purge]|]. intros _. rewrite E. constructor.
Qed.

(** ** Commands on one key *)
Ltac taken :=
  repeat match goal with
    | H : exists _, _ |- _ => destruct H
    | H : _ /\ _ |- _ => destruct H
    | H : _ \/ _ |- _ => destruct H
    | H : _ :: _ = _ :: _ |- _ => injection H; clear H; intros; subst
    | H : _ :: _ = [] |- _ => discriminate H
    | H : [] = _ :: _ |- _ => discriminate H
    | H : Some _ = Some _ |- _ => injection H; clear H; intros; subst
    | H : Some _ = None |- _ => discriminate H
    | H : None = Some _ |- _ => discriminate H
    | H1 : ?x = Some _, H2 : ?x = Some _ |- _ => rewrite H1 in H2
    | H1 : ?x = Some _, H2 : ?x = None |- _ => rewrite H1 in H2
    end; try discriminate; try congruence; try lia.
Ltac np := cbn [wp cq]; intros ?; taken.

Lemma setrange_exact now d n args : Inv d -> wp (eq now) d (setrange_string (n :: args)) (cq (panics_setrange (view now d) args)).
Proof.
  intros HI. destruct args as [|k [|a [|v []]]]; try solve [unfold panics_setrange; np].
  unfold setrange_string. cbv zeta. purge_k. destruct (atoi (str a)) as [o|] eqn:Ea; [|unfold panics_setrange; np].
  destruct (Z.ltb_spec o 0); [cbn [wp cq]; unfold panics_setrange; intros ?; taken; unfold zlen in *; lia|].
  ent; wps; [destruct v0 as [s| | |]|]; wps; try solve [cbn [cq]; unfold panics_setrange; intros ?; taken].
  - unfold set_range. destruct (Z.ltb_spec (zlen (str s)) o) as [Hl|Hl]; [unfold make_ok|].
    + destruct (Z.leb_spec 0 (o - zlen (str s))); [|lia]. destruct (Z.leb_spec ((o - zlen (str s)) * 1) (2 ^ 48)); cbn [andb]; wps; cbn [cq].
      * unfold panics_setrange; intros ?; taken.
      * exists k, a, v, o. split; [reflexivity|]. split; [auto|]. right. exists s, dl. split; [auto|]. lia.
    + wps. cbn [cq]. unfold panics_setrange; intros ?; taken.
  - unfold set_range. cbn [str]. destruct (Z.ltb_spec (zlen (@nil ascii)) o) as [Hl|Hl]; [unfold make_ok|].
    + replace (o - zlen (@nil ascii)) with o in * by (unfold zlen; cbn; lia). destruct (Z.leb_spec 0 o); [|lia]. destruct (Z.leb_spec (o * 1) (2 ^ 48)); cbn [andb]; wps; cbn [cq].
      * unfold panics_setrange; intros ?; taken.
      * exists k, a, v, o. split; [reflexivity|]. split; [auto|]. left. split; [auto|lia].
    + wps. cbn [cq]. unfold zlen in Hl. cbn in Hl. unfold panics_setrange; intros ?; taken.
Qed.

Lemma index_min l : list_index l min_int = LI_crash.
Proof.
  unfold list_index. change (min_int <? 0) with true. cbv iota. change (wrap64 (- min_int)) with min_int. cbv zeta.
  destruct (Z.ltb_spec (zlen l) min_int) as [H|H]; [unfold zlen, min_int in H; lia|reflexivity].
Qed.
Lemma lindex_exact now d n args : Inv d -> wp (eq now) d (lindex_list (n :: args)) (cq (length args = 2%nat /\ panics_index (view now d) args)).
Proof.
  intros HI. destruct args as [|k [|a [|]]]; try solve [cbn [lindex_list wp cq length]; np].
  unfold lindex_list. cbv zeta. purge_k. unfold panics_index. destruct b; [pose proof (Hb eq_refl); solve [np]|]. destruct (atoi (str a)) as [i|] eqn:Ea; [|np].
  unfold list_read. ent; wps; [destruct v|]; wps; try solve [np].
  destruct (Z.eq_dec i min_int) as [->|Hi].
  - rewrite index_min. cbn [wp cq]. split; [reflexivity|]. exists k, a, [], l, dl. auto.
  - pose proof (list_index_spec l i Hi (atoi_range _ _ Ea)) as Hl. destruct (list_index l i) as [|m|]; [np| |contradiction]. destruct (l !! m) as [x|] eqn:Em; [np|]. exfalso. destruct Hl as (? & ? & _). congruence.
Qed.
Lemma lset_exact now d n args : Inv d -> wp (eq now) d (lset_list (n :: args)) (cq (length args = 3%nat /\ panics_index (view now d) args)).
Proof.
  intros HI. destruct args as [|k [|a [|v [|]]]]; try solve [cbn [lset_list wp cq length]; np].
  unfold lset_list. cbv zeta. purge_k. unfold panics_index. destruct b; [pose proof (Hb eq_refl); solve [np]|]. destruct (atoi (str a)) as [i|] eqn:Ea; [|np].
  unfold list_update. ent; wps; [destruct v0|]; wps; try solve [np].
  destruct (Z.eq_dec i min_int) as [->|Hi].
  - rewrite index_min. cbn [wp cq]. split; [reflexivity|]. exists k, a, [v], l, dl. auto.
  - pose proof (list_index_spec l i Hi (atoi_range _ _ Ea)) as Hl. destruct (list_index l i) as [|m|]; [np| |contradiction]. wps. np.
Qed.
Lemma ltrim_exact now d n args : Inv d -> wp (eq now) d (ltrim_list (n :: args)) (cq (panics_ltrim (view now d) args)).
Proof.
  intros HI. unfold panics_ltrim. destruct args as [|k [|a [|c [|]]]]; try solve [cbn [ltrim_list]; np].
  unfold ltrim_list. cbv zeta. purge_k. destruct b; [pose proof (Hb eq_refl); solve [np]|]. destruct (atoi (str a)) as [i|] eqn:Ea; [|np]. destruct (atoi (str c)) as [j|] eqn:Ec; [|np].
  unfold list_update. ent; wps; [destruct v|]; wps; try solve [np].
  unfold list_trim. destruct ((zlen l =? 0) && (i <? 0) && (0 <=? j)) eqn:E.
  - rewrite !andb_true_iff, Z.eqb_eq, Z.ltb_lt, Z.leb_le in E. destruct E as [[E1 E2] E3]. destruct l; [|unfold zlen in E1; cbn in E1; lia]. cbn [wp cq]. exists k, a, c, i, j, dl. auto 10.
  - rewrite !andb_false_iff, Z.eqb_neq, Z.ltb_ge, Z.leb_gt in E. 
    assert (Hno : ~ panics_ltrim (view now d) [k; a; c]).
    { unfold panics_ltrim. intros ?. taken; unfold zlen in *; cbn in *; lia. }
    wps. unfold drop_if_empty. destruct (zlen _ =? 0); wps; exact Hno.
Qed.
Lemma end_words w : (negb (beq (to_lower (str w)) (B "left")) && negb (beq (to_lower (str w)) (B "right"))) = false <-> an_end w.
Proof. unfold an_end, named, beq. rewrite andb_false_iff, !negb_false_iff, !bool_decide_eq_true. reflexivity. Qed.
Lemma lmove_exact now d n args : Inv d -> wp (eq now) d (lmove_list (n :: args)) (cq (panics_lmove (view now d) args)).
Proof.
  intros HI. unfold panics_lmove. destruct args as [|a [|b [|wa [|wb [|]]]]]; try solve [cbn [lmove_list]; np].
  unfold lmove_list. cbv zeta. purge_k. destruct b0; [pose proof (Hb eq_refl); solve [np]|].
  apply wp_purge_sim; [assumption|]. intros d2 b' HI2 Hsim2 Hexp2 Hraw2 Hb2 Hfr2.
  assert (Hv2 : raw d2 (str b) = view now d (str b)) by (rewrite Hraw2; apply (sim_view now); auto; lia).
  assert (Hv1 : raw d2 (str a) = view now d (str a)).
  { destruct (decide (str a = str b)) as [E|E]; [rewrite E; auto|]. rewrite Hfr2 by auto. exact Hraw. }
  destruct (_ || _) eqn:Ew.
  { assert (Hno : ~ (an_end wa /\ an_end wb)); [|cbn [wp cq]; intros ?; taken; tauto]. rewrite <- !end_words. apply orb_true_iff in Ew. destruct Ew; intuition congruence. }
  apply orb_false_iff in Ew as [Ha Hb']. apply end_words in Ha, Hb'.
  pose proof (raw_dict _ _ _ Hv1) as HD1. pose proof (raw_dict _ _ _ Hv2) as HD2.
  set (X := exists a' b' wa' wb' dl, _). 
  assert (Hlast : forall (r : rdata) d', ~ X -> wp (eq now) d' (s' <- dict_get (str a) ;; match s' with Some (VList s') => drop_if_empty (str a) s' | _ => Ret tt end ;;; Ret r) (cq X)).
  { intros r d' HX. apply calm_quiet; auto. apply (cm_loose false false); [discriminate..|]. clear. cm_cmd. }
  rewrite wp_mlock_bare, wp_dict_get, HD1.
  destruct (view now d (str a)) as [[va dla]|] eqn:Eva; [|subst X; solve [np]]. rewrite wp_dict_get, HD2.
  assert (Hno : match view now d (str b) with None | Some (VList _, _) => va <> VList [] | _ => True end -> ~ X).
  { intros Hva. intros (a' & b'' & wa' & wb' & dl & F & _ & _ & E1 & E2). injection F as <- <- <- <-. rewrite Eva in E1. destruct E2 as [E2|(l & dl' & E2)]; rewrite E2 in Hva; congruence. }
  assert (Hyes : match view now d (str b) with None | Some (VList _, _) => va = VList [] | _ => False end -> X).
  { intros Hva. exists a, b, wa, wb, dla. split; [reflexivity|]. split; [auto|]. split; [auto|]. destruct (view now d (str b)) as [[[| |l|] dlb]|] eqn:E; try contradiction; subst va; rewrite Eva; split; eauto. }
  destruct (view now d (str b)) as [[vb dlb]|] eqn:Evb; rewrite ?pbind_assoc.
  - cbn [pbind]. destruct va as [?|?|sl|?]; try solve [cbn [wp cq]; apply Hno; destruct vb; auto; discriminate].
    destruct vb as [?|?|dl|?]; try solve [cbn [pbind]; apply Hlast; apply Hno; auto].
    destruct (if beq _ (B "left") then _ else _) as [[x sl']|] eqn:Ep.
    2:{ cbn [wp pbind cq]. apply Hyes. f_equal. destruct (beq _ _), sl as [|y l']; auto; try discriminate. unfold pop_right in Ep. destruct (rev (y :: l')) eqn:Er; [|discriminate]. apply (f_equal (@length val)) in Er. rewrite rev_length in Er. discriminate. }
    assert (HX : ~ X).
    { apply Hno. intros [= ->]. destruct (beq _ _); discriminate. }
    rewrite !pbind_assoc, wp_obj_put, pbind_assoc, wp_dict_get. 
    assert (Hd : exists l, dict (mut (str a) (VList sl') d2) !! str b = Some (VList l)).
    { destruct (decide (str b = str a)) as [E|E]; dbsimp; [rewrite E; dbsimp; eauto|eauto]. }
    destruct Hd as [l ->]. rewrite pbind_assoc, wp_obj_put. cbn [pbind]. apply Hlast, HX.
  - rewrite wp_dict_set. cbn [pbind].
    assert (Hne : str b <> str a) by (intros E; rewrite E, Eva in Evb; discriminate).
    destruct va as [?|?|sl|?]; try solve [cbn [wp cq]; apply Hno; discriminate]. rewrite ?pbind_assoc.
    destruct (if beq _ (B "left") then _ else _) as [[x sl']|] eqn:Ep.
    2:{ cbn [wp pbind cq]. apply Hyes. f_equal. destruct (beq _ _), sl as [|y l']; auto; try discriminate. unfold pop_right in Ep. destruct (rev (y :: l')) eqn:Er; [|discriminate]. apply (f_equal (@length val)) in Er. rewrite rev_length in Er. discriminate. }
    assert (HX : ~ X).
    { apply Hno. intros [= ->]. destruct (beq _ _); discriminate. }
    rewrite !pbind_assoc, wp_obj_put, pbind_assoc, wp_dict_get. 
    dbsimp. rewrite pbind_assoc, wp_obj_put. cbn [pbind]. apply Hlast, HX.
Qed.

(** ** Sampling *)
Lemma make_neg c sz : min_int <= c < 0 -> 1 <= sz -> make_ok (wrap64 (- c)) sz = negb (2 ^ 48 <? - c * sz).
Proof.
  intros Hc Hsz. unfold make_ok. destruct (Z.eq_dec c min_int) as [->|Hn].
  - change (wrap64 (- min_int)) with min_int. destruct (Z.leb_spec 0 min_int) as [H|H]; [unfold min_int in H; lia|]. cbn [andb].
    symmetry. apply negb_false_iff, Z.ltb_lt. unfold min_int. nia.
  - rewrite wrap64_small by (unfold min_int, max_int in *; lia).
    destruct (Z.leb_spec 0 (- c)); [|lia]. destruct (Z.leb_spec (- c * sz) (2 ^ 48)), (Z.ltb_spec (2 ^ 48) (- c * sz)); try lia; reflexivity.
Qed.
Lemma random_cq sz keys count d now (f : list bytes -> prog rdata) Q :
  1 <= sz -> min_int <= count ->
  (keys = [] \/ 0 <= count \/ - count * sz <= 2 ^ 48 -> forall l, (l = [] -> keys = [] \/ count = 0) -> (keys = [] -> l = []) -> wp (eq now) d (f l) Q) ->
  (keys <> [] -> count < 0 -> 2 ^ 48 < - count * sz -> Q (Crashes d)) ->
  wp (eq now) d (pbind (random_keys sz keys count) f) Q.
Proof.
  intros Hsz Hmin H1 H2. unfold random_keys.
  assert (Hz : zlen keys = 0 <-> keys = []) by (unfold zlen; destruct keys; cbn; split; try lia; discriminate || auto).
  destruct (Z.eqb_spec count 0) as [->|Hc0]; [cbn [orb pbind]; apply H1; auto; right; lia|].
  destruct (Z.eqb_spec (zlen keys) 0) as [Hk|Hk]; [cbn [orb pbind]; apply H1; tauto|]. cbn [orb].
  assert (Hne : keys <> []) by tauto.
  destruct (Z.ltb_spec 0 count) as [Hp|Hp].
  - cbn [pbind wp]. intros o Ho. apply H1; [right; left; lia| |tauto]. intros E. exfalso.
    assert (Hl : length o = length keys) by (apply Permutation_length; auto).
    apply (f_equal (@length bytes)) in E. rewrite take_length in E. unfold zlen in *. destruct keys; [congruence|]. cbn in E, Hl.
    destruct (Z.ltb_spec (Z.of_nat (S (length keys))) count); cbn [length] in *; lia.
  - cbv zeta. rewrite make_neg by lia. destruct (Z.ltb_spec (2 ^ 48) (- count * sz)); cbn [negb].
    + cbn [pbind wp]. apply H2; auto. lia.
    + apply draw_many_wp; auto. intros l Hl1 Hl2. apply H1; [right; right; lia| |tauto]. intros ->. cbn in Hl2. rewrite wrap64_small in Hl2 by (unfold min_int, max_int; nia). lia.
Qed.
Lemma hrandfield_exact now d n args : Inv d -> wp (eq now) d (hrandfield_hash (n :: args)) (cq (panics_hrandfield (view now d) args)).
Proof.
  intros HI. unfold panics_hrandfield.
  assert (Hrun : forall k r count (wv : bool), min_int <= count ->
    (forall h dl, view now d (str k) = Some (VHash h, dl) ->
       (panics_hrandfield (view now d) (k :: r) <-> (count = 1 /\ h = ∅ \/ count < 0 /\ h <> ∅ /\ 2 ^ 48 < - count * (if wv then 24 else 16)))) ->
    ((forall h dl, view now d (str k) <> Some (VHash h, dl)) -> ~ panics_hrandfield (view now d) (k :: r)) ->
    wp (eq now) d (e <- delete_expired_key (str k) ;; if e then Ret Prog.rnil else hrandfield_run k count wv) (cq (panics_hrandfield (view now d) (k :: r)))).
  { intros k r count wv Hm Hx Hn. purge_k. destruct b.
    - cbn [wp cq]. apply Hn. intros h dl. rewrite (Hb eq_refl). discriminate.
    - unfold hrandfield_run. ent; wps; [destruct v as [?|h|?|?]|]; wps; try solve [cbn [cq]; apply Hn; intros ? ?; discriminate].
      specialize (Hx h dl eq_refl). remember (panics_hrandfield (view now d) (k :: r)) as X eqn:EX. clear EX Hn.
      assert (Hh : hash_fields h = [] <-> h = ∅) by (split; [apply hash_fields_nil|intros ->; reflexivity]).
      destruct (Z.eqb_spec count 1) as [->|Hc].
      + apply random_cq; try lia. intros _ l Hl1 Hl2. destruct l as [|x l]; cbn [wp cq].
        * apply Hx. left. split; auto. destruct Hl1 as [Hl1|?]; auto; [|lia]. apply Hh, Hl1.
        * rewrite Hx. intros [[_ F]|[F _]]; [|lia]. apply Hh, Hl2 in F. discriminate.
      + destruct wv.
        * apply random_cq; try lia.
          -- intros Hk l _ _. wps. cbn [cq]. rewrite Hx. intros [[F _]|(F1 & F2 & F3)]; [lia|]. destruct Hk as [Hk|[Hk|Hk]]; try lia. tauto.
          -- intros H1 H2 H3. cbn [cq]. apply Hx. right. tauto.
        * apply random_cq; try lia.
          -- intros Hk l _ _. wps. cbn [cq]. rewrite Hx. intros [[F _]|(F1 & F2 & F3)]; [lia|]. destruct Hk as [Hk|[Hk|Hk]]; try lia. tauto.
          -- intros H1 H2 H3. cbn [cq]. apply Hx. right. tauto. }
  fold (panics_hrandfield (view now d) args). destruct args as [|k [|a [|w [|]]]]; cbn [hrandfield_hash]; try solve [unfold panics_hrandfield; np].
  - apply Hrun.
    + unfold min_int. lia.
    + intros h dl E. unfold panics_hrandfield. split.
      * intros ?. taken. auto.
      * intros [[_ ->]|[? _]]; [|lia]. exists k, [], ∅, dl. auto.
    + intros F. unfold panics_hrandfield. intros (k' & r & h & dl & [= <- <-] & E & _). apply (F h dl E).
  - destruct (atoi (str a)) as [c|] eqn:Ea.
    + apply Hrun.
      * apply atoi_range in Ea. unfold min_int, max_int in *. lia.
      * intros h dl E. unfold panics_hrandfield. split.
        -- intros (k' & r & h' & dl' & F & Ev & [[-> _]|(a' & w & i & -> & Ei & _ & Hx)]); [discriminate|]. injection F as <- <- <-. rewrite decide_True in Hx by reflexivity.
           rewrite E in Ev. injection Ev as <- <-. rewrite Ea in Ei. injection Ei as <-. exact Hx.
        -- intros Hx. exists k, [a], h, dl. split; [reflexivity|]. split; [exact E|]. right. exists a, [], c. split; [reflexivity|]. split; [exact Ea|]. split; [auto|]. exact Hx.
      * intros F. unfold panics_hrandfield. intros (k' & r & h & dl & [= <- <-] & E & _). apply (F h dl E).
    + assert (~ panics_hrandfield (view now d) [k; a]).
      { intros (k' & r & h' & dl' & F & Ev & [[-> _]|(a' & w & i & -> & Ei & _ & Hx)]); [discriminate|]. injection F as <- <- <-. congruence. }
      purge_k. destruct b; wps; auto.
  - assert (Hn : forall i, (~ named w "withvalues" \/ atoi (str a) <> Some i) -> atoi (str a) = Some i \/ atoi (str a) = None -> ~ panics_hrandfield (view now d) [k; a; w]).
    { intros i Hi1 Hi2 (k' & r & h' & dl' & F & Ev & [[-> _]|(a' & w' & i' & -> & Ei & Hw & Hx)]); [discriminate|]. injection F as <- <- <-. destruct Hw as [?|(x & Hw & Hv)]; [discriminate|]. injection Hw as <-. rewrite Ei in *. destruct Hi2 as [Hi2|?]; [|discriminate]. injection Hi2 as <-. destruct Hi1; tauto. }
    destruct (atoi (str a)) as [c|] eqn:Ea.
    + unfold beq. destruct (bool_decide (to_lower (str w) = B "withvalues")) eqn:Ew; [apply bool_decide_eq_true in Ew|apply bool_decide_eq_false in Ew].
      * apply Hrun.
        -- apply atoi_range in Ea. unfold min_int, max_int in *. lia.
        -- intros h dl E. unfold panics_hrandfield. split.
           ++ intros (k' & r & h' & dl' & F & Ev & [[-> _]|(a' & w' & i & -> & Ei & _ & Hx)]); [discriminate|]. injection F as <- <- <-. rewrite decide_False in Hx by discriminate.
              rewrite E in Ev. injection Ev as <- <-. rewrite Ea in Ei. injection Ei as <-. exact Hx.
           ++ intros Hx. exists k, [a; w], h, dl. split; [reflexivity|]. split; [exact E|]. right. exists a, [w], c. split; [reflexivity|]. split; [exact Ea|]. split; [eauto|]. exact Hx.
        -- intros F. unfold panics_hrandfield. intros (k' & r & h & dl & [= <- <-] & E & _). apply (F h dl E).
      * purge_k. destruct b; wps; apply (Hn c); auto.
    + purge_k. destruct b; wps; apply (Hn 0); auto; right; discriminate.
Qed.
Lemma srandmember_exact now d n args : Inv d -> wp (eq now) d (srandmember_set (n :: args)) (cq (panics_srandmember (view now d) args)).
Proof.
  intros HI. destruct args as [|k [|a [|]]]; cbn [srandmember_set]; try solve [unfold panics_srandmember; np].
  - purge_k. unfold panics_srandmember. destruct b; [pose proof (Hb eq_refl); solve [np]|].
    unfold srandmember_run. ent; wps; [destruct v as [?|?|?|s]|]; wps; try solve [np].
    assert (Hs : elements s = [] <-> s = ∅) by (rewrite elements_empty_iff; apply leibniz_equiv_iff).
    apply random_cq; try (unfold min_int; lia). intros _ l Hl1 Hl2. destruct l as [|x l].
    + cbn [wp cq]. exists k, [], s, dl. split; [reflexivity|]. split; [exact Hview|]. left. split; auto. destruct Hl1 as [Hl1|]; auto; [|lia]. apply Hs, Hl1.
    + assert (Hno : ~ panics_srandmember (view now d) [k]).
      { intros (k' & r & s' & dl' & F & Ev & [[-> ->]|(a & i & -> & _)]); [|discriminate]. injection F as <-. rewrite Hview in Ev. injection Ev as -> _. discriminate Hl2. apply elements_empty. }
      destruct x; cbn [wp cq]; exact Hno.
  - assert (Hn : (forall i s dl, atoi (str a) = Some i -> view now d (str k) = Some (VSet s, dl) -> Z.abs i * 16 <= 2 ^ 48) -> ~ panics_srandmember (view now d) [k; a]).
    { intros Hi (k' & r & s' & dl' & F & Ev & [[-> ->]|(a' & i & -> & Ei & Hx)]); [discriminate|]. injection F as <- <-. specialize (Hi _ _ _ Ei Ev). lia. }
    purge_k. destruct b; [cbn [wp cq]; apply Hn; intros i s dl _; rewrite (Hb eq_refl); discriminate|].
    destruct (atoi (str a)) as [c|] eqn:Ea; [|cbn [wp cq]; apply Hn; discriminate]. destruct (Z.eqb_spec c 0) as [->|Hc]; [cbn [wp cq]; apply Hn; intros i s dl [= <-] _; lia|].
    apply atoi_range in Ea as Hr.
    unfold srandmember_run. ent; wps; [destruct v as [?|?|?|s]|]; wps; try solve [cbn [cq]; apply Hn; intros; congruence].
    assert (Hm : make_ok (if c <? 0 then wrap64 (- c) else c) 16 = negb (2 ^ 48 <? Z.abs c * 16)).
    { destruct (Z.ltb_spec c 0); [rewrite make_neg by lia; do 2 f_equal; lia|]. unfold make_ok. rewrite Z.abs_eq by lia. destruct (Z.leb_spec 0 c); [|lia]. destruct (Z.leb_spec (c * 16) (2 ^ 48)), (Z.ltb_spec (2 ^ 48) (c * 16)); try lia; reflexivity. }
    rewrite Hm. destruct (Z.ltb_spec (2 ^ 48) (Z.abs c * 16)) as [Hx|Hx]; cbn [negb].
    + cbn [wp cq]. exists k, [a], s, dl. split; [reflexivity|]. split; [auto|]. right. exists a, c. auto.
    + apply random_cq; try lia. intros _ l _ _. wps. cbn [cq]. apply Hn. intros i s' dl' [= <-] _. lia.
Qed.

(** ** Set operations *)
Lemma expired_lapsed now d k : expired now d k = true <-> lapsed now d k.
Proof.
  unfold expired, lapsed. destruct (exps d !! k) as [t|]; [rewrite Z.ltb_lt|]; split; intros H; eauto; [|discriminate|]; destruct H as (t' & [=] & ?). subst. auto.
Qed.
Lemma lapsed_purge now d k k' : lapsed now (purge k d) k' <-> k' <> k /\ lapsed now d k'.
Proof.
  unfold lapsed. change (exps (purge k d)) with (delete k (exps d)). destruct (decide (k = k')) as [<-|Hn].
  - rewrite lookup_delete. split; [intros (? & [=] & _)|intros [F _]; congruence].
  - rewrite lookup_delete_ne by auto. split; [intros (t & ? & ?); split; eauto|tauto].
Qed.
Lemma live_cq now (Q : outcome rdata -> Prop) : forall (ks : list val) (d : db) (acc : list bytes) (f : list bytes -> prog rdata),
  Inv d -> (forall d' l, (l = [] <-> acc = [] /\ NoDup (map str ks) /\ Forall (fun k => lapsed now d (str k)) ks) -> wp (eq now) d' (f l) Q) ->
  wp (eq now) d (pbind (live_keys ks acc) f) Q.
Proof.
  induction ks as [|k ks IH]; intros d acc f HI H.
  - cbn [live_keys pbind map]. apply H. split; [intros ->; repeat constructor|tauto].
  - cbn [live_keys]. rewrite pbind_assoc, wp_purge. destruct (expired now d (str k)) eqn:E.
    + apply IH; [auto with inv|]. intros d' l Hl. apply H. rewrite Hl. apply expired_lapsed in E. cbn [map].
      assert (Hf : NoDup (str k :: map str ks) /\ Forall (fun k0 => lapsed now d (str k0)) (k :: ks) <-> NoDup (map str ks) /\ Forall (fun k0 => lapsed now (purge (str k) d) (str k0)) ks); [|tauto].
      rewrite stdpp.list.NoDup_cons, stdpp.list.Forall_cons, !stdpp.list.Forall_forall. setoid_rewrite lapsed_purge. rewrite elem_of_list_fmap. split.
      * intros [[H1 H2] [_ H3]]. split; auto. intros x Hx. split; auto. intros F. apply H1. eauto.
      * intros [H1 H2]. split; [split; auto|split; auto]; [intros (x & Hx1 & Hx2); destruct (H2 x Hx2); congruence|]. intros x Hx. apply H2, Hx.
    + apply IH; [auto|]. intros d' l Hl. apply H. rewrite Hl. split.
      * intros [F _]. destruct acc; discriminate.
      * intros (_ & _ & F). apply Forall_cons_1 in F as [F _]. apply expired_lapsed in F. congruence.
Qed.
Lemma setop_exact op now d n args : Inv d -> wp (eq now) d (setop_set op (n :: args)) (cq (panics_setop now d args)).
Proof.
  intros HI. unfold panics_setop. destruct args as [|k r]; cbn [setop_set]; [np|].
  apply live_cq; auto. intros d' l Hl. destruct l as [|k0 ks].
  - rewrite wp_mlock_bare. cbn [wp cq]. destruct Hl as [Hl _]. destruct (Hl eq_refl) as (_ & ? & ?). auto.
  - apply calm_quiet.
    + intros (_ & H1 & H2). destruct Hl as [_ Hl]. discriminate Hl. auto.
    + apply (cm_loose false false); [discriminate..|]. clear. cm_cmd; apply cm_read_sets.
Qed.

(** ** KEYS *)
Lemma keys_loop_cq (now : Z) (p : bytes) (X : Prop) (ks : list bytes) : forall d (f : list rdata -> prog rdata),
  Inv d -> (forall k, k ∈ ks -> is_Some (dict d !! k)) -> NoDup ks ->
  (forall k, k ∈ ks -> view now d k <> None -> glob p k = GPanic -> X) ->
  ((forall k, k ∈ ks -> view now d k <> None -> glob p k <> GPanic) -> forall d' l, wp (eq now) d' (f l) (cq X)) ->
  wp (eq now) d (pbind (keys_loop p ks) f) (cq X).
Proof.
  induction ks as [|k ks IH]; intros d f HI Hin Hnd HX H.
  - cbn [keys_loop pbind]. apply H. intros k F. inversion F.
  - cbn [keys_loop]. rewrite pbind_assoc. apply stdpp.list.NoDup_cons in Hnd as [Hk Hnd].
    rewrite wp_purge. destruct (expired now d k) eqn:Hex.
    + assert (Hs1 : sim now (purge k d) d) by (apply sim_purge; auto).
      assert (Hv : forall k', view now (purge k d) k' = view now d k') by (intros; apply (sim_view now); auto; lia).
      assert (Hkn : view now d k = None) by (apply view_expired; auto).
      apply IH; [auto with inv| |auto| |].
      * intros k' Hk'. unfold purge; simpl. rewrite lookup_delete_ne by set_solver. apply Hin. set_solver.
      * intros k' Hk'. rewrite Hv. apply HX. right. auto.
      * intros Hg. apply H. intros k' Hk' Hl. apply elem_of_cons in Hk' as [->|Hk']; [congruence|]. apply Hg; auto. rewrite Hv. auto.
    + assert (Hlive : view now d k <> None).
      { rewrite view_notexpired by auto. unfold raw. destruct (Hin k) as [v ->]; [set_solver|]. discriminate. }
      pose proof (glob_terminates p k) as Ht. 
      assert (Hrest : glob p k <> GPanic -> (forall k', k' ∈ ks -> view now d k' <> None -> glob p k' <> GPanic) -> forall d' l, wp (eq now) d' (f l) (cq X)).
      { intros H1 H2. apply H. intros k' Hk' Hl. apply elem_of_cons in Hk' as [->|Hk']; auto. }
      destruct (glob p k) as [b| |] eqn:Hb; [|cbn [pbind wp cq]; apply (HX k); auto; left|congruence].
      destruct b.
      * rewrite pbind_assoc. apply IH; [auto|intros; apply Hin; right; auto|auto|intros; eapply HX; eauto; right; auto|]. intros Hg d' l. cbn [pbind]. apply Hrest; [discriminate|auto].
      * apply IH; [auto|intros; apply Hin; right; auto|auto|intros; eapply HX; eauto; right; auto|]. intros Hg d' l. apply Hrest; [discriminate|auto].
Qed.
Lemma keys_exact now d n args : Inv d -> wp (eq now) d (keys_key (n :: args)) (cq (panics_keys now d args)).
Proof.
  intros HI. destruct args as [|p [|]]; try solve [unfold keys_key, panics_keys; np].
  destruct (pattern_read (str p)) as (ts & e & Hp). unfold keys_key.
  destruct (Z.ltb_spec (2 ^ 48) (Z.of_nat (size (dict d)) * 16)) as [Hsz|Hsz].
  { unfold dict_keys. cbn [pbind wp]. destruct HI as [_ HI]. rewrite HI. unfold make_ok.
    destruct (Z.leb_spec (Z.of_nat (size (dict d)) * 16) (2 ^ 48)); [lia|]. rewrite andb_false_r. cbn [pbind wp cq]. exists p. auto. }
  apply dict_keys_wp; auto. intros l Hl. apply keys_loop_cq; auto.
  - intros k Hk. rewrite Hl in Hk. apply elem_of_list_fmap in Hk as ([k' v] & -> & Hk').
    apply elem_of_map_to_list in Hk'. simpl. eauto.
  - rewrite Hl. apply NoDup_fst_map_to_list.
  - intros k _ Hk Hg. exists p. split; auto. right. exists k, ts, e. split; auto. split; auto. apply (glob_exact (str p) ts e k Hp). exact Hg.
  - intros Hg d' l'. cbn [wp cq]. intros (p' & [= <-] & [F|(k & ts' & e' & Hk & Hp' & Hb)]); [lia|].
    apply (Hg k); auto.
    + rewrite Hl. rewrite view_raw in Hk. unfold raw in Hk. destruct (dict d !! k) as [v|] eqn:E; [|elim Hk; auto].
      apply elem_of_list_fmap. exists (k, v). split; auto. apply elem_of_map_to_list. auto.
    + apply (glob_exact (str p) ts' e' k Hp'). exact Hb.
Qed.

(** ** Every command *)
Lemma named_same n s s' : named n s -> named n s' -> B s = B s'.
Proof. unfold named. congruence. Qed.
Ltac the_one H :=
  unfold panics; unfold named in H |- *; rewrite H; split;
  [let HX := fresh in intros HX; repeat first [solve [left; split; [first [reflexivity|left; reflexivity|right; left; reflexivity|right; right; reflexivity]|exact HX]]|solve [split; [reflexivity|exact HX]]|right]
  |let HX := fresh in let F := fresh in intros HX; repeat (destruct HX as [[F HX]|HX]; [first [discriminate F|exact HX|destruct F as [F|[F|F]]; first [discriminate F|exact HX]]|]); destruct HX as [F HX]; first [discriminate F|exact HX]].
Lemma panics_exact now d cmd out : Inv d -> step now d cmd out -> (panics now d cmd <-> exists d', out = Crashes d').
Proof.
  intros HI Hs. apply cq_iff. revert out Hs. apply wp_iff. destruct cmd as [|n args]; [exact I|].
  assert (Hone : forall s ex (X : Prop), named n s -> lookup_cmd (B s) = Some ex -> (X <-> panics now d (n :: args)) -> wp (eq now) d (ex (n :: args)) (cq X) -> wp (eq now) d (exec_in_db (n :: args)) (cq (panics now d (n :: args)))).
  { intros s ex X Hn He HX Hw. rewrite (exec_named n args s ex Hn He). eapply wp_mono; [|exact Hw]. intros out. apply cq_same, HX. }
  assert (Hd : forall s, {named n s} + {~ named n s}) by (intros s; unfold named; apply decide; apply _).
  destruct (Hd "set"%string) as [H|N1]; [eapply (Hone _ _ _ H); [reflexivity| |apply set_exact]; the_one H|].
  destruct (Hd "setrange"%string) as [H|N2]; [eapply (Hone _ _ _ H); [reflexivity| |apply setrange_exact; auto]; the_one H|].
  destruct (Hd "lindex"%string) as [H|N3]; [eapply (Hone _ _ _ H); [reflexivity| |apply lindex_exact; auto]; the_one H|].
  destruct (Hd "lset"%string) as [H|N4]; [eapply (Hone _ _ _ H); [reflexivity| |apply lset_exact; auto]; the_one H|].
  destruct (Hd "lmove"%string) as [H|N5]; [eapply (Hone _ _ _ H); [reflexivity| |apply lmove_exact; auto]; the_one H|].
  destruct (Hd "ltrim"%string) as [H|N6]; [eapply (Hone _ _ _ H); [reflexivity| |apply ltrim_exact; auto]; the_one H|].
  destruct (Hd "hrandfield"%string) as [H|N7]; [eapply (Hone _ _ _ H); [reflexivity| |apply hrandfield_exact; auto]; the_one H|].
  destruct (Hd "srandmember"%string) as [H|N8]; [eapply (Hone _ _ _ H); [reflexivity| |apply srandmember_exact; auto]; the_one H|].
  destruct (Hd "sinter"%string) as [H|N9]; [eapply (Hone _ _ _ H); [reflexivity| |apply (setop_exact OpInter); auto]; the_one H|].
  destruct (Hd "sdiff"%string) as [H|N10]; [eapply (Hone _ _ _ H); [reflexivity| |apply (setop_exact OpDiff); auto]; the_one H|].
  destruct (Hd "sunion"%string) as [H|N11]; [eapply (Hone _ _ _ H); [reflexivity| |apply (setop_exact OpUnion); auto]; the_one H|].
  destruct (Hd "keys"%string) as [H|N12]; [eapply (Hone _ _ _ H); [reflexivity| |apply keys_exact; auto]; the_one H|].
  apply cq_quiet.
  - unfold panics. tauto.
  - intros out Ho d' E. destruct (step_safe now d (n :: args) out Ho) as [Hp _]. apply (Hp ltac:(left; intros s Hs; cbn [In panicking] in Hs; repeat destruct Hs as [<-|Hs]; [assumption..|destruct Hs]) d' E).
Qed.
Lemma loops_exact now d cmd out : Inv d -> step now d cmd out -> (loops_forever now d cmd <-> exists d', out = Hangs d').
Proof.
  intros HI Hs.
  assert (Hw : match out with Hangs _ => loops_forever now d cmd | _ => ~ loops_forever now d cmd end).
  2:{ destruct out as [r d'|d'|d']; (split; [intros H; try tauto; eauto|intros [? [=]]; auto]). }
  destruct cmd as [|n args].
  { destruct (step_safe now d [] out Hs) as [_ Hp]. specialize (Hp (fun x => x)). assert (Hno : ~ loops_forever now d []) by (intros (? & ? & ? & ? & ? & ? & ? & ? & [=] & _)). destruct out; auto. destruct (Hp _ eq_refl). }
  assert (Hd : {named n "linsert"} + {~ named n "linsert"}) by (unfold named; apply decide; apply _). destruct Hd as [Hn|Hn].
  2:{ destruct (step_safe now d (n :: args) out Hs) as [_ Hp]. specialize (Hp Hn). assert (Hno : ~ loops_forever now d (n :: args)) by (intros (n' & ? & ? & ? & ? & ? & ? & ? & [= <-] & F & _); auto). destruct out; auto. destruct (Hp _ eq_refl). }
  revert out Hs. refine (proj1 (wp_iff (eq now) d (exec_in_db (n :: args)) (fun out => match out with Hangs _ => loops_forever now d (n :: args) | _ => ~ loops_forever now d (n :: args) end)) _).
  exec_cmd Hn. unfold loops_forever.
  destruct args as [|k [|w [|p [|v [|]]]]]; try solve [cbn [linsert_list wp]; intros ?; taken].
  unfold linsert_list. cbv zeta. purge_k. destruct b; [pose proof (Hb eq_refl); cbn [wp]; solve [intros ?; taken]|].
  destruct (negb _ && negb _) eqn:Ew.
  { cbn [wp]. intros (n' & k' & w' & p' & v' & l & dl & x & F & _ & Hw & _). injection F as <- <- <- <- <-. unfold named in Hw. rewrite Hw in Ew. vm_compute in Ew. discriminate. }
  unfold list_update. ent; wps; [destruct v0 as [?|?|l|?]|]; wps; try solve [intros ?; taken].
  assert (Hb4 : beq (to_lower (str w)) (B "before") = true -> ~ named w "after").
  { unfold beq, named. intros F%bool_decide_eq_true. rewrite F. discriminate. }
  unfold beq in *. destruct (bool_decide (to_lower (str w) = B "before")) eqn:Ebe; [|destruct (list_insert_after l v p) as [[ok l']|] eqn:Ei].
  - specialize (Hb4 eq_refl). assert (Hno : ~ loops_forever now d [n; k; w; p; v]) by (intros (n' & k' & w' & p' & v' & l' & dl' & x & F & _ & Hw & _); injection F as <- <- <- <- <-; auto).
    destruct (list_insert_before l v p) as [[|] l']; wps; exact Hno.
  - assert (Hno : ~ loops_forever now d [n; k; w; p; v]).
    { intros (n' & k' & w' & p' & v' & l2 & dl' & x & F & _ & Hw & Hv & Hx & H1 & H2). injection F as <- <- <- <- <-. rewrite Hview in Hv. injection Hv as <- <-.
      unfold list_insert_after in Ei. replace (existsb _ l && veq v p) with true in Ei; [discriminate|]. symmetry. apply andb_true_iff. split.
      - apply existsb_exists. exists x. split; [apply elem_of_list_In, Hx|]. apply bool_decide_eq_true. exact H1.
      - apply bool_decide_eq_true. exact H2. }
    destruct ok; wps; exact Hno.
  - cbn [wp]. unfold list_insert_after in Ei. destruct (existsb _ l && veq v p) eqn:E; [|discriminate]. apply andb_true_iff in E as [E1 E2]. apply existsb_exists in E1 as (x & Hx & E1).
    apply bool_decide_eq_true in E1. apply bool_decide_eq_true in E2.
    exists n, k, w, p, v, l, dl, x. split; [reflexivity|]. split; [exact Hn|]. split.
    + apply andb_false_iff in Ew as [Ew|Ew]; apply negb_false_iff in Ew; [congruence|]. apply bool_decide_eq_true in Ew. exact Ew.
    + split; [exact Hview|]. split; [apply elem_of_list_In, Hx|]. auto.
Qed.
End WithParams.
