(** Proofs about the start of the process. *)
From Verif Require Export MainInt ConfigProofs StartupProofs Ints.

(** ** The flags *)
Lemma strip_no_flag w : no_flag w -> strip_dashes w = None.
Proof.
  intros [->|[->|[->|(c & r & -> & Hc)]]]; try reflexivity. unfold strip_dashes.
  destruct c as [[] [] [] [] [] [] [] []]; try reflexivity. congruence.
Qed.
Lemma strip_dashed w t : dashed w t -> strip_dashes w = Some t.
Proof.
  intros [Hw (c & r & -> & Hc & He)]. destruct Hw as [-> | ->].
  - change (B "-" ++ c :: r) with ("-"%char :: c :: r). unfold strip_dashes. destruct c as [[] [] [] [] [] [] [] []]; try reflexivity. congruence.
  - change (B "--" ++ c :: r) with ("-"%char :: "-"%char :: c :: r). reflexivity.
Qed.
Lemma strip_misdashed w : misdashed w -> exists c r, strip_dashes w = Some (c :: r) /\ (c = "-"%char \/ c = "="%char).
Proof. intros (c & r & Hc & [-> | [-> ->]]); [exists c, r|eexists _, _]; split; auto. Qed.
Lemma word_cases w : no_flag w \/ (exists t, dashed w t) \/ misdashed w.
Proof.
  destruct w as [|c w]; [left; left; reflexivity|]. destruct (Ascii.eqb_spec c "-") as [->|Hc]; [|left; right; right; right; eauto].
  destruct w as [|d w]; [left; right; left; reflexivity|]. destruct (Ascii.eqb_spec d "-") as [->|Hd].
  - destruct w as [|e w]; [left; right; right; left; reflexivity|]. destruct (decide (e = "-"%char \/ e = "="%char)) as [He|He].
    + right. right. exists e, w. split; [exact He|left; reflexivity].
    + right. left. exists (e :: w). split; [right; reflexivity|]. exists e, w. split; [reflexivity|]. tauto.
  - destruct (Ascii.eqb_spec d "=") as [->|He].
    + right. right. exists "="%char, w. split; [auto|]. right. split; reflexivity.
    + right. left. exists (d :: w). split; [left; reflexivity|]. exists d, w. auto.
Qed.
Lemma cut_eq_some n v : "="%char ∉ n -> cut_eq (n ++ "="%char :: v) = (n, Some v).
Proof.
  induction n as [|c n IH]; intros H; [reflexivity|]. apply not_elem_of_cons in H as [H1 H2]. cbn [app cut_eq].
  replace (Ascii.eqb c "=") with false by (symmetry; apply Ascii.eqb_neq; congruence). rewrite (IH H2). reflexivity.
Qed.
Lemma cut_eq_none n : "="%char ∉ n -> cut_eq n = (n, None).
Proof.
  induction n as [|c n IH]; intros H; [reflexivity|]. apply not_elem_of_cons in H as [H1 H2]. cbn [cut_eq].
  replace (Ascii.eqb c "=") with false by (symmetry; apply Ascii.eqb_neq; congruence). rewrite (IH H2). reflexivity.
Qed.
Lemma cut_name_some n v : n <> [] -> "="%char ∉ n -> cut_name (n ++ "="%char :: v) = (n, Some v).
Proof. intros Hn H. destruct n as [|c n]; [congruence|]. apply not_elem_of_cons in H as [H1 H2]. cbn [app cut_name]. rewrite cut_eq_some by auto. reflexivity. Qed.
Lemma cut_name_none n : "="%char ∉ n -> cut_name n = (n, None).
Proof. intros H. destruct n as [|c n]; [reflexivity|]. apply not_elem_of_cons in H as [H1 H2]. cbn [cut_name]. rewrite cut_eq_none by auto. reflexivity. Qed.
Lemma cut_total t : exists n u, t = n ++ u /\ "="%char ∉ n /\ (u = [] \/ exists v, u = "="%char :: v).
Proof.
  induction t as [|c t (n & u & -> & Hn & Hu)]; [exists [], []; split; [reflexivity|]; split; [apply not_elem_of_nil|auto]|].
  destruct (Ascii.eqb_spec c "=") as [->|Hc]; [exists [], ("="%char :: n ++ u); split; [reflexivity|]; split; [apply not_elem_of_nil|eauto]|].
  exists (c :: n), u. split; [reflexivity|]. split; [apply not_elem_of_cons; split; [congruence|auto]|auto].
Qed.
Lemma known_names n : n ∈ flag_names <-> known_flag n.
Proof. unfold flag_names, known_flag, takes_int. rewrite !elem_of_cons, !elem_of_nil. tauto. Qed.

Ltac cmp := repeat match goal with |- context [beq (B ?x) (B ?y)] => let v := eval vm_compute in (beq (B x) (B y)) in change (beq (B x) (B y)) with v end.
(** What one setting does. *)
Definition opts_by (kvs : list (bytes * bytes)) (o o' : opts) : Prop :=
  let c := conf_of o in let c' := conf_of o' in
  cfg_file o' = default (cfg_file o) (setting "config" kvs) /\
  host c' = default (host c) (setting "host" kvs) /\ logdir c' = default (logdir c) (setting "logdir" kvs) /\
  loglevel c' = default (loglevel c) (setting "loglevel" kvs) /\
  int_setting "port" kvs (port c) (port c') /\ int_setting "segnum" kvs (segs c) (segs c') /\ int_setting "dbnum" kvs (dbnum c) (dbnum c').
Lemma setting_cons name n v kvs : setting name ((n, v) :: kvs) = match setting name kvs with Some a => Some a | None => if decide (n = B name) then Some v else None end.
Proof.
  unfold setting. cbn [omap list_omap fst snd]. destruct (decide (n = B name)) as [E|E]; [|destruct (list.last _); reflexivity].
  match goal with |- list.last (v :: ?l) = _ => rewrite (last_cons v l) end. destruct (list.last _); reflexivity.
Qed.
Lemma opts_by_nil o : opts_by [] o o.
Proof. repeat split. Qed.
Lemma opts_by_cons n v kvs o o1 o2 : opts_by [(n, v)] o o1 -> opts_by kvs o1 o2 -> opts_by ((n, v) :: kvs) o o2.
Proof.
  unfold opts_by, int_setting. cbv zeta. rewrite !setting_cons. change (setting _ []) with (@None bytes).
  intros (H0 & H1 & H2 & H3 & H4 & H5 & H6) (G0 & G1 & G2 & G3 & G4 & G5 & G6).
  split; [destruct (setting "config" kvs); [exact G0|etransitivity; [exact G0|exact H0]]|].
  split; [destruct (setting "host" kvs); [exact G1|etransitivity; [exact G1|exact H1]]|].
  split; [destruct (setting "logdir" kvs); [exact G2|etransitivity; [exact G2|exact H2]]|].
  split; [destruct (setting "loglevel" kvs); [exact G3|etransitivity; [exact G3|exact H3]]|].
  split; [destruct (setting "port" kvs); [exact G4|rewrite G4; exact H4]|].
  split; [destruct (setting "segnum" kvs); [exact G5|rewrite G5; exact H5]|].
  destruct (setting "dbnum" kvs); [exact G6|rewrite G6; exact H6].
Qed.
Lemma opts_by_fun kvs o o1 o2 : opts_by kvs o o1 -> opts_by kvs o o2 -> o1 = o2.
Proof.
  destruct o1 as [f1 [a1 b1 c1 d1 e1 g1]], o2 as [f2 [a2 b2 c2 d2 e2 g2]]. unfold opts_by. cbn.
  intros (H0 & H1 & H2 & H3 & H4 & H5 & H6) (G0 & G1 & G2 & G3 & G4 & G5 & G6).
  assert (F : forall name dflt z z', int_setting name kvs dflt z -> int_setting name kvs dflt z' -> z = z').
  { intros name dflt z z'. unfold int_setting. destruct (setting name kvs); [|congruence]. intros E1%flag_int_spec E2%flag_int_spec. congruence. }
  rewrite (F _ _ _ _ H4 G4), (F _ _ _ _ H5 G5), (F _ _ _ _ H6 G6). congruence.
Qed.
Lemma set_flag_fine o n v : known_flag n -> fine_value n v -> exists o', set_flag o n v = Some o' /\ opts_by [(n, v)] o o'.
Proof.
  intros Hk Hv. unfold opts_by, int_setting. cbv zeta. rewrite !setting_cons. change (setting _ []) with (@None bytes).
  unfold set_flag. cbv zeta. unfold known_flag in Hk. destruct Hk as [Hk|Hk].
  - rewrite !elem_of_cons, elem_of_nil in Hk. destruct Hk as [-> |[-> |[-> |[-> |[]]]]]; cmp; (eexists; split; [reflexivity|]); repeat split.
  - destruct (Hv Hk) as [z Hz]. pose proof Hz as E. apply flag_int_spec in E. rewrite E.
    unfold takes_int in Hk. rewrite !elem_of_cons, elem_of_nil in Hk. destruct Hk as [-> |[-> |[-> |[]]]]; cmp; (eexists; split; [reflexivity|]); do 6 (split; [first [reflexivity|exact Hz]|]); first [reflexivity|exact Hz].
Qed.
Lemma set_flag_bad o n v : takes_int n -> ~ (exists z, int_word v z) -> set_flag o n v = None.
Proof.
  intros Hk Hz. assert (E : flag_int v = None). { destruct (flag_int v) eqn:E; [|reflexivity]. apply flag_int_spec in E. destruct Hz. eauto. }
  unfold set_flag. cbv zeta. rewrite E. unfold takes_int in Hk. rewrite !elem_of_cons, elem_of_nil in Hk. destruct Hk as [-> |[-> |[-> |[]]]]; reflexivity.
Qed.

(** One flag. *)
Lemma dashed_text w t : dashed w t -> exists c r, t = c :: r /\ (Ascii.eqb c "-" || Ascii.eqb c "=") = false.
Proof. intros [_ (c & r & -> & H1 & H2)]. exists c, r. split; [reflexivity|]. apply orb_false_iff. split; apply Ascii.eqb_neq; auto. Qed.
Lemma parse_dashed w t rest o : dashed w t -> parse_flags (w :: rest) o =
  let '(name, value) := cut_name t in
  if negb (bool_decide (name ∈ flag_names)) then if beq name (B "help") || beq name (B "h") then FlagExit 0 else FlagExit 2
  else match value with
       | Some v => match set_flag o name v with Some o' => parse_flags rest o' | None => FlagExit 2 end
       | None => match rest with [] => FlagExit 2 | v :: rest' => match set_flag o name v with Some o' => parse_flags rest' o' | None => FlagExit 2 end end
       end.
Proof.
  intros H. cbn [parse_flags]. rewrite (strip_dashed _ _ H). destruct (dashed_text _ _ H) as (c & r & -> & E). rewrite E. reflexivity.
Qed.
Lemma dashed_name w n u : dashed w (n ++ u) -> (u = [] \/ exists v, u = "="%char :: v) -> n <> [].
Proof.
  intros [_ (c & r & E & _ & He)] Hu ->. cbn in E. subst u. destruct Hu as [?|[v ?]]; congruence.
Qed.
Theorem flags_sound args kvs e : flags args kvs e -> forall o,
  match e with
  | AllWell => exists o', parse_flags args o = FlagOk o' /\ opts_by kvs o o'
  | AskedHelp => parse_flags args o = FlagExit 0
  | Wrong => parse_flags args o = FlagExit 2
  end.
Proof.
  assert (Hkn : forall n, known_flag n -> negb (bool_decide (n ∈ flag_names)) = false).
  { intros n Hk. apply negb_false_iff. apply bool_decide_eq_true_2. apply known_names. exact Hk. }
  assert (Htk : forall n, takes_int n -> known_flag n) by (intros n Hn; right; exact Hn).
  induction 1 as [|w r Hw|w n v r kvs e Hw Hn Hk Hv _ IH|w n v r kvs e Hw Hn Hk Hv _ IH|w r Hw|w n u r Hw Hn Hu Hk|w n u r Hw Hn Hu Hk H1 H2|w n Hw Hn Hk|w n v r Hw Hn Hk Hz|w n v r Hw Hn Hk Hz]; intros o.
  - exists o. split; [reflexivity|apply opts_by_nil].
  - cbn [parse_flags]. rewrite (strip_no_flag _ Hw). exists o. split; [reflexivity|apply opts_by_nil].
  - change (B "=" ++ v) with ("="%char :: v) in Hw. pose proof (dashed_name _ _ _ Hw ltac:(eauto)) as Hne.
    rewrite (parse_dashed _ _ _ _ Hw), cut_name_some by auto. rewrite (Hkn n Hk). destruct (set_flag_fine o n v Hk Hv) as (o1 & -> & H1).
    specialize (IH o1). destruct e; [|exact IH..]. destruct IH as (o2 & -> & H2). exists o2. split; [reflexivity|]. eapply opts_by_cons; eauto.
  - rewrite (parse_dashed _ _ _ _ Hw), cut_name_none by auto. rewrite (Hkn n Hk). destruct (set_flag_fine o n v Hk Hv) as (o1 & -> & H1).
    specialize (IH o1). destruct e; [|exact IH..]. destruct IH as (o2 & -> & H2). exists o2. split; [reflexivity|]. eapply opts_by_cons; eauto.
  - cbn [parse_flags]. destruct (strip_misdashed _ Hw) as (c & t & -> & [-> | ->]); reflexivity.
  - rewrite (parse_dashed _ _ _ _ Hw). assert (Hc : exists value, cut_name (n ++ u) = (n, value)).
    { destruct Hu as [-> |[v ->]]; [rewrite app_nil_r, cut_name_none by auto; eauto|]. change (B "=" ++ v) with ("="%char :: v) in *. rewrite cut_name_some; [eauto| |auto].
      apply (dashed_name _ _ _ Hw). eauto. }
    destruct Hc as [value ->]. destruct Hk as [-> | ->]; reflexivity.
  - rewrite (parse_dashed _ _ _ _ Hw). assert (Hc : exists value, cut_name (n ++ u) = (n, value)).
    { destruct Hu as [-> |[v ->]]; [rewrite app_nil_r, cut_name_none by auto; eauto|]. change (B "=" ++ v) with ("="%char :: v) in *. rewrite cut_name_some; [eauto| |auto].
      apply (dashed_name _ _ _ Hw). eauto. }
    destruct Hc as [value ->]. rewrite bool_decide_eq_false_2 by (rewrite known_names; exact Hk). cbn [negb].
    replace (beq n (B "help") || beq n (B "h")) with false; [reflexivity|]. symmetry. apply orb_false_iff. split; apply not_true_iff_false; intros E%beq_eq; auto.
  - rewrite (parse_dashed _ _ _ _ Hw), cut_name_none by auto. rewrite (Hkn n Hk). reflexivity.
  - change (B "=" ++ v) with ("="%char :: v) in Hw. pose proof (dashed_name _ _ _ Hw ltac:(eauto)) as Hne.
    rewrite (parse_dashed _ _ _ _ Hw), cut_name_some by auto. rewrite (Hkn n) by auto. rewrite (set_flag_bad o n v Hk Hz). reflexivity.
  - rewrite (parse_dashed _ _ _ _ Hw), cut_name_none by auto. rewrite (Hkn n) by auto. rewrite (set_flag_bad o n v Hk Hz). reflexivity.
Qed.
Lemma value_cases n v : fine_value n v \/ takes_int n /\ ~ (exists z, int_word v z).
Proof.
  destruct (flag_int v) as [z|] eqn:E; [left; intros _; exists z; apply flag_int_spec; exact E|].
  destruct (decide (n ∈ [B "port"; B "segnum"; B "dbnum"])) as [H|H]; [|left; intros ?; contradiction].
  right. split; [exact H|]. intros [z Hz%flag_int_spec]. congruence.
Qed.
Theorem flags_total args : exists kvs e, flags args kvs e.
Proof.
  remember (length args) as m eqn:Em. revert args Em. induction m as [m IH] using lt_wf_ind. intros args ->.
  destruct args as [|w r]; [exists [], AllWell; constructor|]. destruct (word_cases w) as [Hw|[[t Hw]|Hw]]; [eexists _, _; apply fl_stop; auto| |eexists _, _; apply fl_misdashed; auto].
  destruct (cut_total t) as (n & u & -> & Hn & Hu).
  destruct (decide (n ∈ flag_names)) as [Hk|Hk].
  - apply known_names in Hk. destruct Hu as [-> |[v ->]].
    + rewrite app_nil_r in Hw. destruct r as [|v r]; [eexists _, _; eapply fl_missing; eauto|]. destruct (value_cases n v) as [Hv|[H1 H2]].
      * destruct (IH (length r) ltac:(cbn; lia) r eq_refl) as (kvs & e & H). exists ((n, v) :: kvs), e. exact (fl_next w n v r kvs e Hw Hn Hk Hv H).
      * eexists _, _. eapply fl_bad_next; eauto.
    + destruct (value_cases n v) as [Hv|[H1 H2]].
      * destruct (IH (length r) ltac:(cbn; lia) r eq_refl) as (kvs & e & H). exists ((n, v) :: kvs), e. exact (fl_same w n v r kvs e Hw Hn Hk Hv H).
      * exists [], Wrong. exact (fl_bad_same w n v r Hw Hn H1 H2).
  - rewrite known_names in Hk. destruct (decide (n = B "h" \/ n = B "help")) as [Hh|Hh]; [exists [], AskedHelp; exact (fl_help w n u r Hw Hn Hu Hh)|].
    exists [], Wrong. apply (fl_unknown w n u r Hw Hn Hu Hk); intros ?; apply Hh; auto.
Qed.
Lemma opts_by_flags kvs o c : opts_by kvs default_opts o -> by_flags kvs c <-> c = conf_of o.
Proof.
  intros H. split.
  - intros (G1 & G2 & G3 & G4 & G5 & G6). assert (E : mkOpts (cfg_file o) c = o); [|rewrite <- E; reflexivity].
    apply (opts_by_fun kvs default_opts); [|exact H]. destruct H as (H0 & _). repeat split; assumption.
  - intros ->. destruct H as (H0 & H). exact H.
Qed.

(** ** The file *)
Lemma configured_fun wss c c1 c2 : configured wss c c1 -> configured wss c c2 -> c1 = c2.
Proof.
  destruct c1 as [a1 b1 d1 e1 f1 g1], c2 as [a2 b2 d2 e2 f2 g2]. unfold configured. cbn.
  intros (H1 & H2 & H3 & H4 & H5 & H6) (G1 & G2 & G3 & G4 & G5 & G6).
  assert (F : forall name dflt z z', int_field name wss dflt z -> int_field name wss dflt z' -> z = z').
  { intros name dflt z z'. unfold int_field. destruct (last_arg name wss); [|congruence]. congruence. }
  rewrite (F _ _ _ _ H4 G4), (F _ _ _ _ H5 G5), (F _ _ _ _ H6 G6). congruence.
Qed.
Section File.
Context (valid_ip : bytes -> bool).
Lemma broken_line fuel l f c : LF ∉ l -> load_any valid_ip true (S fuel) (l ++ LF :: f) c =
  match fields l with [] => load_any valid_ip true fuel f c | n :: a => match apply_line valid_ip c n a with CfgOk c' => load_any valid_ip true fuel f c' | o => Some o end end.
Proof. intros H. cbn [load_any]. rewrite read_line, fields_lf by auto. cbn [andb]. destruct (fields l); [reflexivity|]. destruct (apply_line _ _ _ _); reflexivity. Qed.
Lemma broken_last fuel l c : LF ∉ l -> load_any valid_ip true (S fuel) l c = Some (CfgOk c).
Proof. intros H. cbn [load_any]. rewrite read_last by auto. reflexivity. Qed.
Lemma lines_nonempty s ls : lines s ls -> ls <> [].
Proof. intros []; discriminate. Qed.
Lemma removelast_more {A} (x : A) l : l <> [] -> removelast (x :: l) = x :: removelast l.
Proof. destruct l; [congruence|reflexivity]. Qed.
Lemma broken_good s ls wss c fuel : lines s ls -> Forall2 words_of (removelast ls) wss -> Forall (good_line valid_ip) wss -> (length ls <= fuel)%nat ->
  exists c', load_any valid_ip true fuel s c = Some (CfgOk c') /\ configured wss c c'.
Proof.
  intros Hl. revert wss c fuel. induction Hl as [l Hl|l f ls Hl Hf IH]; intros wss c fuel HF HG Hfuel; (destruct fuel as [|fuel]; [cbn in Hfuel; lia|]).
  - cbn in HF. inversion HF; subst. rewrite broken_last by auto. exists c. split; [reflexivity|apply configured_nil].
  - rewrite removelast_more in HF by (eapply lines_nonempty; eauto). inversion HF as [|? ws ? wss' Hw HF']; subst. cbn in Hfuel.
    rewrite broken_line by auto. rewrite (words_fields _ _ Hw). inversion HG as [|? ? Hg HG']; subst.
    destruct ws as [|n args].
    + destruct (IH wss' c fuel HF' HG' ltac:(lia)) as (c' & H1 & H2). exists c'. split; [exact H1|]. eapply configured_cons; [|exact H2]. apply configured_nil.
    + destruct (apply_good valid_ip c n args Hg) as (c1 & -> & Hc). destruct (IH wss' c1 fuel HF' HG' ltac:(lia)) as (c' & H1 & H2). exists c'. split; [exact H1|]. eapply configured_cons; eauto.
Qed.
Lemma broken_bad s ls c fuel pre ws post : lines s ls -> Forall2 words_of (removelast ls) (pre ++ ws :: post) -> Forall (good_line valid_ip) pre -> (length pre < fuel)%nat ->
  (bare_line ws -> load_any valid_ip true fuel s c = Some CfgPanic) /\ (wrong_line valid_ip ws -> load_any valid_ip true fuel s c = Some CfgErr).
Proof.
  intros Hl. revert c fuel pre. induction Hl as [l Hl|l f ls Hl Hf IH]; intros c fuel pre HF HG Hfuel; (destruct fuel as [|fuel]; [lia|]).
  - cbn in HF. apply Forall2_nil_inv_l in HF. destruct pre; discriminate.
  - rewrite removelast_more in HF by (eapply lines_nonempty; eauto). rewrite broken_line by auto.
    destruct pre as [|x pre]; cbn [app] in HF; inversion HF as [|? ws0 ? wss' Hw HF']; subst; rewrite (words_fields _ _ Hw).
    + split.
      * intros (n & -> & Hn). rewrite apply_bare by auto. reflexivity.
      * intros H. pose proof H as (n & a & r & -> & _). rewrite apply_wrong by auto. reflexivity.
    + cbn in Hfuel. inversion HG as [|? ? Hg HG']; subst.
      destruct x as [|n args]; [apply (IH c fuel pre HF' HG'); lia|]. destruct (apply_good valid_ip c n args Hg) as (c1 & -> & Hc). apply (IH c1 fuel pre HF' HG'); lia.
Qed.
Theorem file_sound s broken c e : file_does valid_ip s broken c e ->
  match e with
  | Accepted c' => exists N, forall fuel, (N <= fuel)%nat -> load_any valid_ip broken fuel s c = Some (CfgOk c')
  | Rejected => exists N, forall fuel, (N <= fuel)%nat -> load_any valid_ip broken fuel s c = Some CfgErr
  | FilePanic => exists N, forall fuel, (N <= fuel)%nat -> load_any valid_ip broken fuel s c = Some CfgPanic
  | FileLoop => forall fuel, load_any valid_ip broken fuel s c = None
  end.
Proof.
  intros [ls wss c' Hl HF HG Hlast Hc|ls wss Hl -> HF HG Hlast|ls pre ws post Hl HF HG Hw|ls pre ws post Hl HF HG Hw].
  - exists (length ls). intros fuel Hf. destruct broken.
    + destruct (broken_good s ls wss c fuel Hl HF HG Hf) as (c1 & H1 & H2). rewrite (configured_fun _ _ _ _ Hc H2). exact H1.
    + destruct (load_good valid_ip s ls wss c fuel Hl HF HG (Hlast eq_refl) Hf) as (c1 & H1 & H2). rewrite (configured_fun _ _ _ _ Hc H2). exact H1.
  - intros fuel. exact (load_blank_end valid_ip s ls wss c fuel Hl HF HG Hlast).
  - exists (S (length pre)). intros fuel Hf. destruct broken; [eapply broken_bad; eauto|]. eapply (load_bad valid_ip); eauto.
  - exists (S (length pre)). intros fuel Hf. destruct broken; [eapply broken_bad; eauto|]. eapply (load_bad valid_ip); eauto.
Qed.
Lemma first_fault (wss : list (list bytes)) : Forall (good_line valid_ip) wss \/
  exists pre ws post, wss = pre ++ ws :: post /\ Forall (good_line valid_ip) pre /\ (bare_line ws \/ wrong_line valid_ip ws).
Proof.
  induction wss as [|ws wss IH]; [left; constructor|]. destruct (line_cases valid_ip ws) as [H|H]; [|right; exists [], ws, wss; auto].
  destruct IH as [IH|(pre & w & post & -> & H1 & H2)]; [left; constructor; auto|]. right. exists (ws :: pre), w, post. auto.
Qed.
Lemma words_all ls : exists wss, Forall2 words_of ls wss.
Proof. induction ls as [|l ls [wss IH]]; [exists []; constructor|]. destruct (words_total l) as [ws H]. exists (ws :: wss). constructor; auto. Qed.
Theorem file_total s broken c : exists e, file_does valid_ip s broken c e.
Proof.
  destruct (lines_total s) as [ls Hl]. destruct (words_all (if broken then removelast ls else ls)) as [wss HF].
  destruct (first_fault wss) as [HG|(pre & ws & post & -> & HG & [Hw|Hw])].
  - destruct (decide (broken = false /\ list.last wss = Some [])) as [[-> E]|E]; [exists FileLoop; eapply fd_loop; eauto|].
    assert (exists c', configured wss c c') as [c' Hc].
    { destruct broken; [destruct (broken_good s ls wss c (length ls) Hl HF HG (le_n _)) as (c' & _ & H); eauto|].
      destruct (load_good valid_ip s ls wss c (length ls) Hl HF HG) as (c' & _ & H); eauto. }
    exists (Accepted c'). eapply fd_accepted; eauto.
  - exists FilePanic. eapply fd_panic; eauto.
  - exists Rejected. eapply fd_rejected; eauto.
Qed.
End File.
