(** Proofs about the configuration file. *)
From Verif Require Export SpecConfig.

Lemma beq_eq a b : beq a b = true <-> a = b.
Proof. unfold beq. apply bool_decide_eq_true. Qed.

(** ** White space *)
Lemma white_ok p : p ∈ spaces <-> exists n, n ∈ white_space /\ p = utf8 n.
Proof.
  replace spaces with (map utf8 white_space) by (vm_compute; reflexivity).
  rewrite elem_of_list_fmap. split; intros (n & H1 & H2); eauto.
Qed.
Lemma spaces_prefix_free p q : p ∈ spaces -> q ∈ spaces -> take (length p) q = p -> q = p.
Proof.
  assert (H : forallb (fun p => forallb (fun q => bool_decide (take (length p) q = p -> q = p)) spaces) spaces = true) by (vm_compute; reflexivity).
  intros Hp%elem_of_list_In Hq%elem_of_list_In. rewrite forallb_forall in H. specialize (H _ Hp). rewrite forallb_forall in H. specialize (H _ Hq).
  apply bool_decide_eq_true in H. exact H.
Qed.
Lemma spaces_not_nil p : p ∈ spaces -> p <> [].
Proof.
  assert (H : forallb (fun p => bool_decide (p <> [])) spaces = true) by (vm_compute; reflexivity).
  intros Hp%elem_of_list_In. rewrite forallb_forall in H. specialize (H _ Hp). apply bool_decide_eq_true in H. exact H.
Qed.
(** The first byte of a white space character is not found inside another one. *)
Lemma spaces_heads c p u d v : (c :: p) ∈ spaces -> u <> [] -> (u ++ d :: v) ∈ spaces -> d <> c.
Proof.
  assert (H : forallb (fun p => forallb (fun q => forallb (fun d => bool_decide (head p <> Some d)) (drop 1 q)) spaces) spaces = true) by (vm_compute; reflexivity).
  intros Hp%elem_of_list_In Hu Hq%elem_of_list_In. rewrite forallb_forall in H. specialize (H _ Hp). rewrite forallb_forall in H. specialize (H _ Hq).
  rewrite forallb_forall in H. intros ->. destruct u as [|x u]; [congruence|]. cbn [drop app] in H.
  specialize (H c ltac:(apply in_or_app; right; left; reflexivity)). apply bool_decide_eq_true in H. apply H. reflexivity.
Qed.
Lemma take_prefix (p s : bytes) : take (length p) s = p <-> exists r, s = p ++ r.
Proof.
  split; [intros H; exists (drop (length p) s); rewrite <- H at 1; symmetry; apply take_drop|intros [r ->]; apply take_app].
Qed.
Lemma space_at_app p s : p ∈ spaces -> space_at (p ++ s) = length p.
Proof.
  intros Hp. unfold space_at. match goal with |- context [List.find ?f spaces] => destruct (List.find f spaces) as [q|] eqn:E end.
  - apply find_some in E as [Hq Hb]. apply elem_of_list_In in Hq. apply beq_eq in Hb. apply take_prefix in Hb as [r Hr].
    destruct (app_eq_inv p s q r Hr) as [(k & -> & _)|(k & -> & _)].
    + rewrite (spaces_prefix_free q (q ++ k) Hq Hp (take_app q k)). reflexivity.
    + rewrite (spaces_prefix_free p (p ++ k) Hp Hq (take_app p k)). reflexivity.
  - exfalso. apply elem_of_list_In in Hp. apply (find_none _ _ E) in Hp. apply not_true_iff_false in Hp. apply Hp. apply beq_eq. apply take_app.
Qed.
Lemma space_at_0 s : (forall p r, s = p ++ r -> p ∉ spaces) -> space_at s = 0%nat.
Proof.
  intros H. unfold space_at. match goal with |- context [List.find ?f spaces] => destruct (List.find f spaces) as [q|] eqn:E end; [|reflexivity]. exfalso.
  apply find_some in E as [Hq Hb]. apply elem_of_list_In in Hq. apply beq_eq in Hb. apply take_prefix in Hb as [r Hr]. eapply H; eauto.
Qed.
Lemma space_at_pos s : space_at s <> 0%nat -> exists p r, s = p ++ r /\ p ∈ spaces /\ space_at s = length p.
Proof.
  unfold space_at. match goal with |- context [List.find ?f spaces] => destruct (List.find f spaces) as [q|] eqn:E end; [|congruence]. intros _.
  apply find_some in E as [Hq Hb]. apply elem_of_list_In in Hq. apply beq_eq in Hb. apply take_prefix in Hb as [r Hr]. eauto 6.
Qed.
Lemma fields_skip k w s : (k <= length s)%nat -> fields_from k w s = fields_from 0 w (drop k s).
Proof. revert w s. induction k as [|k IH]; intros w [|c s] H; cbn in *; try lia; auto. apply IH. lia. Qed.
Lemma fields_space p w s : p ∈ spaces -> fields_from 0 w (p ++ s) = (if decide (w = []) then [] else [w]) ++ fields_from 0 [] s.
Proof.
  intros Hp. pose proof (space_at_app p s Hp) as Hs. pose proof (spaces_not_nil p Hp) as Hn. destruct p as [|c p]; [congruence|].
  cbn [app] in *. cbn [fields_from]. rewrite Hs. cbn [length]. destruct w as [|x w]; cbn; rewrite fields_skip by (rewrite app_length; lia); rewrite drop_app; reflexivity.
Qed.
Lemma fields_word u w s : no_space w -> (s = [] \/ exists p r, s = p ++ r /\ p ∈ spaces) -> fields_from 0 u (w ++ s) = fields_from 0 (u ++ w) s.
Proof.
  intros Hw Hs. revert u. induction w as [|c w IH]; intros u; [rewrite app_nil_r; reflexivity|].
  cbn [app fields_from]. rewrite space_at_0.
  - rewrite IH, <- app_assoc; [reflexivity|]. intros a p b ->. apply (Hw (c :: a) p b). reflexivity.
  - intros p r E Hp. change (c :: w ++ s) with ((c :: w) ++ s) in E. apply app_eq_inv in E as [(k & E & _)|(k & -> & ->)].
    + apply (Hw [] p k E). auto.
    + destruct k as [|d k].
      * rewrite app_nil_r in Hp. apply (Hw [] (c :: w) []); [rewrite app_nil_r; reflexivity|auto].
      * cbn [app] in Hs. destruct Hs as [Hs|(q & r' & Hs & Hq)]; [discriminate|]. pose proof (spaces_not_nil q Hq). destruct q as [|x q]; [congruence|].
        injection Hs as <- _. apply (spaces_heads d q (c :: w) d k); auto.
Qed.
Lemma words_fields s ws : words_of s ws -> fields s = ws.
Proof.
  unfold fields. induction 1 as [|p s ws Hp _ IH|w s ws Hw Hn Hs _ IH]; [reflexivity| |].
  - rewrite fields_space, decide_True by auto. exact IH.
  - rewrite fields_word by auto. cbn [app]. destruct Hs as [->|(p & r & -> & Hp)].
    + destruct w; [congruence|]. rewrite <- IH. reflexivity.
    + rewrite fields_space in * by auto. rewrite decide_True in IH by auto. rewrite decide_False by auto. rewrite <- IH. reflexivity.
Qed.
Lemma first_space s : exists w s', s = w ++ s' /\ (s' = [] \/ exists p r, s' = p ++ r /\ p ∈ spaces) /\ forall u v, w = u ++ v -> v <> [] -> space_at (v ++ s') = 0%nat.
Proof.
  induction s as [|c s IH].
  - exists [], []. split; [auto|]. split; [auto|]. intros u v E Hv. symmetry in E. apply app_eq_nil in E as [_ E]. congruence.
  - destruct (Nat.eq_dec (space_at (c :: s)) 0%nat) as [E|E].
    + destruct IH as (w & s' & -> & Hs & Hw). exists (c :: w), s'. split; [reflexivity|]. split; [auto|].
      intros [|x u] v Eu Hv; cbn in Eu; [subst v; exact E|injection Eu as _ ->; eauto].
    + exists [], (c :: s). split; [reflexivity|]. destruct (space_at_pos _ E) as (p & r & -> & Hp & _). split; [eauto|].
      intros u v Eu Hv. symmetry in Eu. apply app_eq_nil in Eu as [_ Eu]. congruence.
Qed.
Lemma words_total s : exists ws, words_of s ws.
Proof.
  remember (length s) as n eqn:Hn. revert s Hn. induction n as [n IH] using (well_founded_induction lt_wf). intros s ->.
  destruct (first_space s) as (w & s' & -> & Hs & Hw). rewrite app_length in IH. destruct w as [|c w].
  - destruct Hs as [->|(p & r & -> & Hp)]; [exists []; constructor|]. pose proof (spaces_not_nil p Hp). cbn [length] in IH. rewrite app_length in IH.
    destruct (IH (length r) ltac:(destruct p; [congruence|cbn; lia]) r eq_refl) as [ws Hws]. exists ws. exact (words_space p r ws Hp Hws).
  - destruct (IH (length s') ltac:(cbn; lia) s' eq_refl) as [ws Hws]. exists ((c :: w) :: ws). apply words_word; auto.
    intros u p v E Hp. specialize (Hw u (p ++ v) E). rewrite <- app_assoc, space_at_app in Hw by auto. pose proof (spaces_not_nil p Hp).
    destruct p; [congruence|]. specialize (Hw ltac:(discriminate)). discriminate.
Qed.
Theorem words_spec s ws : fields s = ws <-> words_of s ws.
Proof. split; [|apply words_fields]. intros <-. destruct (words_total s) as [ws H]. rewrite (words_fields _ _ H). exact H. Qed.

(** ** Lines *)
Lemma read_line l f : LF ∉ l -> read_string (l ++ LF :: f) = (l ++ [LF], false, f).
Proof.
  induction l as [|c l IH]; intros H; [reflexivity|]. cbn [app read_string].
  replace (Ascii.eqb c LF) with false by (symmetry; apply Ascii.eqb_neq; intros ->; apply H; left).
  rewrite IH; [reflexivity|]. intros Hl. apply H. right. auto.
Qed.
Lemma read_last l : LF ∉ l -> read_string l = (l, true, []).
Proof.
  induction l as [|c l IH]; intros H; [reflexivity|]. cbn [read_string].
  replace (Ascii.eqb c LF) with false by (symmetry; apply Ascii.eqb_neq; intros ->; apply H; left).
  rewrite IH; [reflexivity|]. intros Hl. apply H. right. auto.
Qed.
Lemma fields_lf l : fields (l ++ [LF]) = fields l.
Proof.
  apply words_spec. destruct (words_total l) as [ws H]. rewrite (words_fields _ _ H).
  assert (HL : [LF] ∈ spaces) by (right; left). assert (H1 : words_of ([LF] ++ []) []) by (apply words_space; [auto|constructor]).
  induction H as [|p s ws Hp _ IH|w s ws Hw Hn Hs _ IH]; [exact H1|rewrite <- app_assoc; apply words_space; auto|].
  rewrite <- app_assoc. apply words_word; auto. right. destruct Hs as [->|(p & r & -> & Hp)]; [exists [LF], []; auto|]. exists p, (r ++ [LF]). rewrite <- app_assoc. auto.
Qed.
Lemma lines_total s : exists ls, lines s ls.
Proof.
  induction s as [|c s [ls IH]]; [exists [[]]; constructor; apply not_elem_of_nil|].
  destruct (Ascii.eqb_spec c LF) as [->|Hc]; [exists ([] :: ls); apply (lines_more [] s ls); auto; apply not_elem_of_nil|].
  destruct IH as [l Hl|l f ls Hl IH]; [exists [c :: l]; constructor|exists ((c :: l) :: ls); apply (lines_more (c :: l)); auto].
  all: apply not_elem_of_cons; split; [congruence|auto].
Qed.

(** ** Loading *)
Section Load.
Context (valid_ip : bytes -> bool).
(** One round. *)
Lemma load_line fuel l f c : LF ∉ l -> load valid_ip (S fuel) (l ++ LF :: f) c =
  match fields l with [] => load valid_ip fuel f c | n :: a => match apply_line valid_ip c n a with CfgOk c' => load valid_ip fuel f c' | o => Some o end end.
Proof. intros H. unfold load. cbn [load_any]. rewrite read_line, fields_lf by auto. cbn [andb]. destruct (fields l); [reflexivity|]. destruct (apply_line _ _ _ _); reflexivity. Qed.
Lemma load_last fuel l c : LF ∉ l -> load valid_ip (S fuel) l c =
  match fields l with [] => load valid_ip fuel [] c | n :: a => Some (apply_line valid_ip c n a) end.
Proof. intros H. unfold load. cbn [load_any]. rewrite read_last by auto. cbn [andb]. destruct (fields l); [reflexivity|]. destruct (apply_line _ _ _ _); reflexivity. Qed.
Lemma load_empty fuel c : load valid_ip fuel [] c = None.
Proof. induction fuel as [|n IH]; [reflexivity|]. exact IH. Qed.

(** One directive. *)
Lemma last_arg_nil name : last_arg name [] = None. Proof. reflexivity. Qed.
Lemma last_arg_cons name ws wss : last_arg name (ws :: wss) = match last_arg name wss with Some a => Some a | None => directive (B name) ws end.
Proof. 
  unfold last_arg. cbn [omap list_omap]. destruct (directive (B name) ws) as [a|]; [|destruct (list.last _); reflexivity].
  change (list_omap _ _ (directive (B name)) wss) with (omap (directive (B name)) wss). rewrite last_cons. destruct (list.last _); reflexivity.
Qed.
Lemma configured_nil c : configured [] c c.
Proof. repeat split. Qed.
Lemma configured_cons ws wss c c1 c2 : configured [ws] c c1 -> configured wss c1 c2 -> configured (ws :: wss) c c2.
Proof.
  unfold configured, int_field. rewrite !last_arg_cons, !last_arg_nil. intros (H1 & H2 & H3 & H4 & H5 & H6) (G1 & G2 & G3 & G4 & G5 & G6).
  split; [destruct (last_arg "host" wss); [exact G1|etransitivity; [exact G1|exact H1]]|].
  split; [destruct (last_arg "logdir" wss); [exact G2|etransitivity; [exact G2|exact H2]]|].
  split; [destruct (last_arg "loglevel" wss); [exact G3|etransitivity; [exact G3|exact H3]]|].
  split; [destruct (last_arg "port" wss); [exact G4|rewrite G4; exact H4]|].
  split; [destruct (last_arg "segnum" wss); [exact G5|rewrite G5; exact H5]|].
  destruct (last_arg "dbnum" wss); [exact G6|rewrite G6; exact H6].
Qed.
Ltac cmp := repeat match goal with |- context [beq (B ?x) (B ?y)] => let v := eval vm_compute in (beq (B x) (B y)) in change (beq (B x) (B y)) with v end.
Ltac inn := apply elem_of_list_In; vm_compute; tauto.
Lemma name_cases n : n = B "host" \/ n = B "logdir" \/ n = B "loglevel" \/ n = B "port" \/ n = B "segnum" \/ n = B "dbnum" \/ n ∉ all_names.
Proof. destruct (decide (n ∈ all_names)) as [H|H]; [|tauto]. unfold all_names, int_names in H. cbn [app] in H. rewrite !elem_of_cons, elem_of_nil in H. tauto. Qed.
Lemma not_named n x : n ∉ all_names -> B x ∈ all_names -> beq n (B x) = false.
Proof. intros H1 H2. apply not_true_iff_false. intros E%beq_eq. subst. auto. Qed.
Lemma apply_good c n args : good_line valid_ip (n :: args) -> exists c', apply_line valid_ip c n args = CfgOk c' /\ configured [n :: args] c c'.
Proof.
  cbn [good_line]. intros H. unfold apply_line. cbv zeta.
  unfold configured, int_field. rewrite !last_arg_cons, !last_arg_nil. unfold directive.
  destruct (name_cases (to_lower n)) as [E|[E|[E|[E|[E|[E|E]]]]]].
  7: { rewrite !(not_named _ _ E) by inn. exists c. split; [reflexivity|]. destruct args; repeat split. }
  all: rewrite E in *; destruct (H ltac:(inn)) as (a & r & -> & H1 & H2); cmp; cbv beta iota.
  1: (rewrite (H1 eq_refl); eexists; split; [reflexivity|]; repeat split).
  1,2: (eexists; split; [reflexivity|]; repeat split).
  all: destruct (H2 ltac:(inn)) as [z ->]; (eexists; split; [reflexivity|]; repeat split).
Qed.
Lemma apply_bare c n : to_lower n ∈ all_names -> apply_line valid_ip c n [] = CfgPanic.
Proof.
  intros H. unfold apply_line. cbv zeta. destruct (name_cases (to_lower n)) as [E|[E|[E|[E|[E|[E|E]]]]]]; [..|contradiction]; rewrite E; cmp; reflexivity.
Qed.
Lemma apply_wrong c n a r : wrong_line valid_ip (n :: a :: r) -> apply_line valid_ip c n (a :: r) = CfgErr.
Proof.
  intros (n' & a' & r' & [= <- <- <-] & H). unfold apply_line. cbv zeta. destruct H as [[-> H]|[H Ha]]; [cmp; rewrite H; reflexivity|].
  unfold int_names in H. rewrite !elem_of_cons, elem_of_nil in H. destruct H as [->|[->|[->|[]]]]; cmp; rewrite Ha; reflexivity.
Qed.
Lemma line_cases ws : good_line valid_ip ws \/ bare_line ws \/ wrong_line valid_ip ws.
Proof.
  destruct ws as [|n args]; [left; exact I|]. destruct (decide (to_lower n ∈ all_names)) as [Hn|Hn]; [|left; intros ?; contradiction].
  destruct args as [|a r]; [right; left; exists n; auto|].
  destruct (decide (to_lower n = B "host" /\ valid_ip a = false \/ to_lower n ∈ int_names /\ atoi a = None)) as [H|H]; [right; right; exists n, a, r; auto|].
  left. intros _. exists a, r. split; [auto|]. split.
  - intros E. destruct (valid_ip a) eqn:Ev; auto; destruct H; auto.
  - intros E. destruct (atoi a) eqn:Ev; eauto; destruct H; auto.
Qed.

(** The whole file. *)
Lemma lines_cons_inv s l ls : lines s (l :: ls) -> ls <> [] -> LF ∉ l /\ exists f, s = l ++ LF :: f /\ lines f ls.
Proof. intros H Hl. inversion H; subst; [congruence|]. eauto. Qed.
Theorem load_good s ls wss c fuel : lines s ls -> Forall2 words_of ls wss -> Forall (good_line valid_ip) wss -> list.last wss <> Some [] -> (length ls <= fuel)%nat ->
  exists c', load valid_ip fuel s c = Some (CfgOk c') /\ configured wss c c'.
Proof.
  intros Hl. revert wss c fuel. induction Hl as [l Hl|l f ls Hl Hf IH]; intros wss c fuel HF HG Hlast Hfuel.
  - inversion HF as [|? ws ? ? Hw HF']; subst. inversion HF'; subst. destruct fuel as [|fuel]; [cbn in Hfuel; lia|].
    rewrite load_last by auto. rewrite (words_fields _ _ Hw). destruct ws as [|n args]; [cbn in Hlast; congruence|].
    inversion HG as [|? ? Hg _]; subst. destruct (apply_good c n args Hg) as (c' & -> & Hc). eauto.
  - inversion HF as [|? ws ? wss' Hw HF']; subst. destruct fuel as [|fuel]; [cbn in Hfuel; lia|]. cbn in Hfuel.
    rewrite load_line by auto. rewrite (words_fields _ _ Hw). inversion HG as [|? ? Hg HG']; subst.
    assert (Hlast' : list.last wss' <> Some []). { rewrite last_cons in Hlast. destruct (list.last wss') eqn:E; [auto|congruence]. }
    destruct ws as [|n args].
    + destruct (IH wss' c fuel HF' HG' Hlast' ltac:(lia)) as (c' & H1 & H2). exists c'. split; [exact H1|]. eapply configured_cons; [|exact H2]. apply configured_nil.
    + destruct (apply_good c n args Hg) as (c1 & -> & Hc). destruct (IH wss' c1 fuel HF' HG' Hlast' ltac:(lia)) as (c' & H1 & H2). exists c'. split; [exact H1|]. eapply configured_cons; eauto.
Qed.
Theorem load_blank_end s ls wss c fuel : lines s ls -> Forall2 words_of ls wss -> Forall (good_line valid_ip) wss -> list.last wss = Some [] -> load valid_ip fuel s c = None.
Proof.
  intros Hl. revert wss c fuel. induction Hl as [l Hl|l f ls Hl Hf IH]; intros wss c [|fuel] HF HG Hlast; try reflexivity.
  - inversion HF as [|? ws ? ? Hw HF']; subst. inversion HF'; subst. cbn in Hlast. injection Hlast as ->.
    rewrite load_last by auto. rewrite (words_fields _ _ Hw). apply load_empty.
  - inversion HF as [|? ws ? wss' Hw HF']; subst.
    rewrite load_line by auto. rewrite (words_fields _ _ Hw). inversion HG as [|? ? Hg HG']; subst.
    assert (Hlast' : list.last wss' = Some []). { rewrite last_cons in Hlast. destruct (list.last wss') eqn:E; [auto|]. apply last_None in E. subst. inversion HF'; subst. inversion Hf. }
    destruct ws as [|n args]; [apply IH with (wss := wss'); auto|]. destruct (apply_good c n args Hg) as (c1 & -> & Hc). apply IH with (wss := wss'); auto.
Qed.
Theorem load_bad s ls wss c fuel pre ws post : lines s ls -> Forall2 words_of ls wss -> wss = pre ++ ws :: post -> Forall (good_line valid_ip) pre -> (length pre < fuel)%nat ->
  (bare_line ws -> load valid_ip fuel s c = Some CfgPanic) /\ (wrong_line valid_ip ws -> load valid_ip fuel s c = Some CfgErr).
Proof.
  intros Hl. revert wss c fuel pre. induction Hl as [l Hl|l f ls Hl Hf IH]; intros wss c fuel pre HF E HG Hfuel; (destruct fuel as [|fuel]; [lia|]).
  - inversion HF as [|? ws0 ? ? Hw HF']; subst. inversion HF'; subst.
    destruct pre as [|x pre]; [|destruct pre; discriminate]. cbn [app] in *. match goal with H : [_] = _ |- _ => injection H as -> _ end.
    rewrite load_last by auto. rewrite (words_fields _ _ Hw). split.
    + intros (n & -> & Hn). rewrite apply_bare by auto. reflexivity.
    + intros H. pose proof H as (n & a & r & -> & _). rewrite apply_wrong by auto. reflexivity.
  - inversion HF as [|? ws0 ? wss' Hw HF']; subst. rewrite load_line by auto. rewrite (words_fields _ _ Hw).
    destruct pre as [|x pre]; cbn [app] in *; match goal with H : _ :: _ = _ :: _ |- _ => injection H as -> -> end.
    + split.
      * intros (n & -> & Hn). rewrite apply_bare by auto. reflexivity.
      * intros H. pose proof H as (n & a & r & -> & _). rewrite apply_wrong by auto. reflexivity.
    + cbn in Hfuel. inversion HG as [|? ? Hg HG']; subst.
      destruct x as [|n args]; [apply (IH _ c fuel pre HF' eq_refl HG'); lia|]. destruct (apply_good c n args Hg) as (c1 & -> & Hc). apply (IH _ c1 fuel pre HF' eq_refl HG'); lia.
Qed.
End Load.
