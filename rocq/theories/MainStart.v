(** Proofs about the start of the process: every start has exactly one outcome. *)
From Verif Require Export MainProofs.

Section Start.
Context (sys : system).
Definition launch (c : config) : start_out :=
  if negb (init_logger sys c) then Exits 1 else if negb (listens sys (host c) (port c)) then Exits 1 else if manager_ok c then Serves c else Panics.
Lemma load_mono bad f : forall g s c o, load_any (ip_ok sys) bad f s c = Some o -> (f <= g)%nat -> load_any (ip_ok sys) bad g s c = Some o.
Proof.
  induction f as [|f IH]; intros g s c o H Hg; [discriminate|]. destruct g as [|g]; [lia|]. cbn [load_any] in *.
  destruct (read_string s) as [[line eof] rest]. destruct (eof && bad); [exact H|]. destruct (fields line) as [|n a]; [apply IH; [exact H|lia]|].
  destruct (apply_line _ _ _ _); [|exact H..]. destruct eof; [exact H|]. apply IH; [exact H|lia].
Qed.
Lemma main_mono f g args o : main sys f args = Some o -> (f <= g)%nat -> main sys g args = Some o.
Proof.
  unfold main, init_config. intros H Hg. destruct (parse_flags args default_opts) as [p|]; [|exact H].
  destruct (negb _); [exact H|]. destruct (cfg_file p) eqn:Ef; [exact H|]. rewrite <- Ef in *. destruct (opens sys (cfg_file p)) as [[s bad]|]; [|exact H].
  destruct (load_any (ip_ok sys) bad f s (conf_of p)) as [r|] eqn:E; [|discriminate]. rewrite (load_mono _ _ g _ _ _ E Hg). exact H.
Qed.
Lemma main_configured fuel args o r : parse_flags args default_opts = FlagOk o -> init_config sys fuel o = Some r ->
  main sys fuel args = Some (match r with CfgPanic => Panics | CfgErr => Exits 1 | CfgOk c => launch c end).
Proof. intros H1 H2. unfold main. rewrite H1, H2. destruct r; reflexivity. Qed.
Theorem configures_sound args f : configures sys args f ->
  match f with
  | Configured c => exists N, forall fuel, (N <= fuel)%nat -> main sys fuel args = Some (launch c)
  | Stops n => exists N, forall fuel, (N <= fuel)%nat -> main sys fuel args = Some (Exits n)
  | ConfigPanics => exists N, forall fuel, (N <= fuel)%nat -> main sys fuel args = Some Panics
  | ConfigLoops => forall fuel, main sys fuel args = None
  end.
Proof.
  assert (Hwell : forall kvs c, flags args kvs AllWell -> by_flags kvs c -> exists f, parse_flags args default_opts = FlagOk (mkOpts f c) /\ f = default [] (setting "config" kvs)).
  { intros kvs c Hf Hb. destruct (flags_sound _ _ _ Hf default_opts) as (o & Ho & Hk). apply (opts_by_flags _ _ c Hk) in Hb. subst c. exists (cfg_file o).
    split; [rewrite Ho; destruct o; reflexivity|]. destruct Hk as [Hk _]. exact Hk. }
  intros [kvs Hf|kvs Hf|kvs c Hf Hb Hi|kvs c Hf Hb Hi Hs|kvs c f' Hf Hb Hi Hs Hn Ho|kvs c f' s broken e Hf Hb Hi Hs Hn Ho He].
  - exists 0%nat. intros fuel _. unfold main. rewrite (flags_sound _ _ _ Hf default_opts). reflexivity.
  - exists 0%nat. intros fuel _. unfold main. rewrite (flags_sound _ _ _ Hf default_opts). reflexivity.
  - exists 0%nat. intros fuel _. destruct (Hwell _ _ Hf Hb) as (fl & E & _). erewrite main_configured; [|exact E|unfold init_config; cbn [conf_of]; rewrite Hi; reflexivity]. reflexivity.
  - exists 0%nat. intros fuel _. destruct (Hwell _ _ Hf Hb) as (fl & E & Ef). rewrite Hs in Ef. subst fl. erewrite main_configured; [|exact E|unfold init_config; cbn [conf_of cfg_file]; rewrite Hi; reflexivity]. reflexivity.
  - exists 0%nat. intros fuel _. destruct (Hwell _ _ Hf Hb) as (fl & E & Ef). rewrite Hs in Ef. cbn in Ef. subst fl. destruct f' as [|x f']; [congruence|].
    erewrite main_configured; [|exact E|unfold init_config; cbn [conf_of cfg_file]; rewrite Hi; cbn [negb]; rewrite Ho; reflexivity]. reflexivity.
  - destruct (Hwell _ _ Hf Hb) as (fl & E & Ef). rewrite Hs in Ef. cbn in Ef. subst fl. destruct f' as [|x f']; [congruence|].
    assert (G : forall fuel, init_config sys fuel (mkOpts (x :: f') c) = load_any (ip_ok sys) broken fuel s c).
    { intros fuel. unfold init_config. cbn [conf_of cfg_file]. rewrite Hi. cbn [negb]. rewrite Ho. reflexivity. }
    pose proof (file_sound _ _ _ _ _ He) as H. destruct e as [c'| | |].
    1-3: destruct H as [N H]; exists N; intros fuel HN; erewrite main_configured; [|exact E|rewrite G; apply H; exact HN]; reflexivity.
    intros fuel. unfold main. rewrite E, G, H. reflexivity.
Qed.
Theorem configures_total args : exists f, configures sys args f.
Proof.
  destruct (flags_total args) as (kvs & e & Hf). destruct e; [|eexists; eapply co_help; eauto|eexists; eapply co_wrong; eauto].
  destruct (flags_sound _ _ _ Hf default_opts) as (o & Ho & Hk). pose proof (proj2 (opts_by_flags _ _ (conf_of o) Hk) eq_refl) as Hb.
  destruct (ip_ok sys (host (conf_of o))) eqn:Hi; [|eexists; eapply co_ip; eauto].
  destruct (setting "config" kvs) as [[|x f]|] eqn:Es; [eexists; eapply co_no_file; eauto; rewrite Es; reflexivity| |eexists; eapply co_no_file; eauto; rewrite Es; reflexivity].
  destruct (opens sys (x :: f)) as [[s broken]|] eqn:Eo; [|eexists; eapply co_not_open; eauto].
  destruct (file_total (ip_ok sys) s broken (conf_of o)) as [e He]. eexists. eapply co_file; eauto.
Qed.

(** The numbers are 64-bit integers. *)
Lemma int_setting_range name kvs dflt z : - 2 ^ 63 <= dflt < 2 ^ 63 -> int_setting name kvs dflt z -> - 2 ^ 63 <= z < 2 ^ 63.
Proof. unfold int_setting. intros Hd. destruct (setting name kvs); [intros [H _]; exact H|intros ->; exact Hd]. Qed.
Lemma int_field_range name wss old z : - 2 ^ 63 <= old < 2 ^ 63 -> int_field name wss old z -> - 2 ^ 63 <= z < 2 ^ 63.
Proof. unfold int_field. intros Hd. destruct (last_arg name wss); [intros [_ H]%atoi_iff; unfold fits64 in H; lia|intros ->; exact Hd]. Qed.
Lemma by_flags_range kvs c : by_flags kvs c -> - 2 ^ 63 <= segs c < 2 ^ 63.
Proof. intros (_ & _ & _ & _ & H & _). eapply int_setting_range; [|exact H]. lia. Qed.
Lemma configures_range args c : configures sys args (Configured c) -> - 2 ^ 63 <= segs c < 2 ^ 63.
Proof.
  intros H. inversion H as [| | |? ? ? Hb ? ?| |kvs c0 f s broken e Hf Hb Hi Hs Hn Ho He Ee]; subst; [eapply by_flags_range; eauto|].
  destruct e as [c'| | |]; try discriminate. injection Ee as ->. inversion He as [ls wss ? ? ? ? ? Hc| | |]; subst. apply by_flags_range in Hb.
  destruct Hc as (_ & _ & _ & _ & Hc & _). eapply int_field_range; eauto.
Qed.
Lemma room_iff c : - 2 ^ 63 <= segs c < 2 ^ 63 -> manager_ok c = true <-> room c.
Proof.
  intros Hr. unfold manager_ok, new_memdb, new_locks, room. cbv zeta.
  assert (E : match option_map (fun n => (table_size (segs c), n)) (if make_ok (wrap64 (2 * segs c)) 8 then Some (wrap64 (2 * segs c)) else None) with Some _ => true | None => false end = make_ok (wrap64 (2 * segs c)) 8).
  { destruct (make_ok _ _); reflexivity. }
  rewrite E. unfold make_ok. rewrite !andb_true_iff, negb_true_iff, !Z.leb_le, Z.eqb_neq.
  assert (W : wrap64 (2 * segs c) = 2 * segs c \/ 2 * segs c >= 2 ^ 63 /\ wrap64 (2 * segs c) = 2 * segs c - 2 ^ 64 \/ 2 * segs c < - 2 ^ 63 /\ wrap64 (2 * segs c) = 2 * segs c + 2 ^ 64).
  { unfold wrap64. destruct (decide (2 * segs c >= 2 ^ 63)); [|destruct (decide (2 * segs c < - 2 ^ 63))].
    - right; left. split; [lia|]. replace (2 * segs c + 2 ^ 63) with ((2 * segs c + 2 ^ 63 - 2 ^ 64) + 1 * 2 ^ 64) by lia. rewrite Z.mod_add, Z.mod_small by lia. lia.
    - right; right. split; [lia|]. replace (2 * segs c + 2 ^ 63) with ((2 * segs c + 2 ^ 63 + 2 ^ 64) + (-1) * 2 ^ 64) by lia. rewrite Z.mod_add, Z.mod_small by lia. lia.
    - left. rewrite Z.mod_small by lia. lia. }
  assert (WR : - 2 ^ 63 <= wrap64 (2 * segs c) < 2 ^ 63) by (unfold wrap64; pose proof (Z.mod_pos_bound (2 * segs c + 2 ^ 63) (2 ^ 64) ltac:(lia)); lia).
  assert (W' : - 2 ^ 63 <= 2 * segs c < 2 ^ 63 -> wrap64 (2 * segs c) = 2 * segs c). { intros. unfold wrap64. rewrite Z.mod_small by lia. lia. }
  split.
  - intros [[H1 H2] H3]. split; [lia|]. destruct W as [W|[[W0 W]|[W0 W]]]; rewrite W in *; lia.
  - intros [H1 H2]. split; [split; [lia|lia]|]. destruct W as [W|[[W0 W]|[W0 W]]]; rewrite W in *; lia.
Qed.
Lemma logs_iff c : init_logger sys c = true <-> logs sys c.
Proof. unfold init_logger, logs. rewrite andb_true_iff, orb_true_iff. reflexivity. Qed.

(** Every start. *)
Lemma main_fun f g args o o' : main sys f args = Some o -> main sys g args = Some o' -> o = o'.
Proof. intros H1 H2. apply (main_mono _ (Nat.max f g)) in H1; [|lia]. apply (main_mono _ (Nat.max f g)) in H2; [|lia]. congruence. Qed.
Lemma main_iff args o : (exists fuel, main sys fuel args = Some o) <->
  exists f, configures sys args f /\ match f with Configured c => o = launch c | Stops n => o = Exits n | ConfigPanics => o = Panics | ConfigLoops => False end.
Proof.
  split.
  - intros [fuel H]. destruct (configures_total args) as [f Hf]. exists f. split; [exact Hf|]. apply configures_sound in Hf.
    destruct f; [destruct Hf as [N Hf]; specialize (Hf N (le_n _)); eapply main_fun; eauto..|]. rewrite Hf in H. discriminate.
  - intros (f & Hf & E). apply configures_sound in Hf. destruct f; [destruct Hf as [N Hf]; subst o; eauto..|contradiction].
Qed.
Theorem start_serves args c : (exists fuel, main sys fuel args = Some (Serves c)) <->
  configures sys args (Configured c) /\ logs sys c /\ listens sys (host c) (port c) = true /\ room c.
Proof.
  rewrite main_iff. split.
  - intros (f & Hf & E). destruct f as [c'| | |]; try discriminate; [|contradiction]. pose proof (configures_range _ _ Hf) as Hr.
    unfold launch in E. destruct (init_logger sys c') eqn:E1; [|discriminate]. destruct (listens sys (host c') (port c')) eqn:E2; [|discriminate].
    destruct (manager_ok c') eqn:E3; [|discriminate]. injection E as <-. split; [exact Hf|]. split; [apply logs_iff; exact E1|]. split; [exact E2|]. apply room_iff; auto.
  - intros (Hf & H1 & H2 & H3). exists (Configured c). split; [exact Hf|]. pose proof (configures_range _ _ Hf) as Hr.
    unfold launch. apply logs_iff in H1. apply room_iff in H3; auto. rewrite H1, H2, H3. reflexivity.
Qed.
Theorem start_exits args n : (exists fuel, main sys fuel args = Some (Exits n)) <->
  configures sys args (Stops n) \/ n = 1 /\ exists c, configures sys args (Configured c) /\ (~ logs sys c \/ listens sys (host c) (port c) = false).
Proof.
  rewrite main_iff. split.
  - intros (f & Hf & E). destruct f as [c'| | |]; try discriminate; [| |contradiction].
    + right. unfold launch in E. destruct (init_logger sys c') eqn:E1; [destruct (listens sys (host c') (port c')) eqn:E2; [destruct (manager_ok c'); discriminate|]|]; injection E as ->.
      * split; [reflexivity|]. exists c'. auto.
      * split; [reflexivity|]. exists c'. split; [exact Hf|]. left. rewrite <- logs_iff, E1. discriminate.
    + injection E as <-. auto.
  - intros [H|[-> (c & Hc & H)]]; [exists (Stops n); auto|]. exists (Configured c). split; [exact Hc|]. unfold launch.
    destruct (init_logger sys c) eqn:E1; [|reflexivity]. destruct H as [H|H]; [apply logs_iff in E1; contradiction|]. rewrite H. reflexivity.
Qed.
Theorem start_panics args : (exists fuel, main sys fuel args = Some Panics) <->
  configures sys args ConfigPanics \/ exists c, configures sys args (Configured c) /\ logs sys c /\ listens sys (host c) (port c) = true /\ ~ room c.
Proof.
  rewrite main_iff. split.
  - intros (f & Hf & E). destruct f as [c'| | |]; try discriminate; [|auto|contradiction]. right. exists c'. pose proof (configures_range _ _ Hf) as Hr. unfold launch in E.
    destruct (init_logger sys c') eqn:E1; [|discriminate]. destruct (listens sys (host c') (port c')) eqn:E2; [|discriminate].
    destruct (manager_ok c') eqn:E3; [discriminate|]. split; [exact Hf|]. split; [apply logs_iff; exact E1|]. split; [reflexivity|]. rewrite <- room_iff, E3 by auto. discriminate.
  - intros [H|(c & Hc & H1 & H2 & H3)]; [exists ConfigPanics; auto|]. exists (Configured c). split; [exact Hc|]. pose proof (configures_range _ _ Hc) as Hr. unfold launch.
    apply logs_iff in H1. rewrite H1, H2. rewrite <- room_iff in H3 by auto. destruct (manager_ok c); [congruence|reflexivity].
Qed.
Theorem start_loops args : (forall fuel, main sys fuel args = None) <-> configures sys args ConfigLoops.
Proof.
  split; [|intros H; exact (configures_sound _ _ H)]. intros H. destruct (configures_total args) as [f Hf]. pose proof (configures_sound _ _ Hf) as G.
  destruct f; [destruct G as [N G]; specialize (G N (le_n _)); rewrite H in G; discriminate..|exact Hf].
Qed.
Theorem start_cases args : (exists o fuel, forall g, (fuel <= g)%nat -> main sys g args = Some o) \/ (forall fuel, main sys fuel args = None).
Proof.
  destruct (configures_total args) as [f Hf]. apply configures_sound in Hf. destruct f; [left; destruct Hf as [N Hf]; eauto..|right; exact Hf].
Qed.

(** Where a setting comes from. *)
Theorem start_settings args c fuel : main sys fuel args = Some (Serves c) -> exists kvs wss,
  flags args kvs AllWell /\ (default [] (setting "config" kvs) = [] -> wss = []) /\
  host c = default (default (B "127.0.0.1") (setting "host" kvs)) (last_arg "host" wss) /\
  logdir c = default (default (B "./") (setting "logdir" kvs)) (last_arg "logdir" wss) /\
  loglevel c = default (default (B "info") (setting "loglevel" kvs)) (to_lower <$> last_arg "loglevel" wss) /\
  (forall name dflt get, (name, dflt, get) ∈ [("port"%string, 6379, port); ("segnum"%string, 100, segs); ("dbnum"%string, 16, dbnum)] ->
    match last_arg name wss, setting name kvs with Some a, _ => atoi a = Some (get c) | None, Some v => int_word v (get c) | None, None => get c = dflt end).
Proof.
  intros H. assert (Hs : exists fuel, main sys fuel args = Some (Serves c)) by eauto. apply start_serves in Hs as [Hc _].
  inversion Hc as [| | |kvs ? Hf Hb Hi Hn| |kvs c0 f s broken e Hf Hb Hi Hs Hn Ho He Ee]; subst.
  - exists kvs, []. destruct Hb as (H1 & H2 & H3 & H4 & H5 & H6). split; [exact Hf|]. split; [auto|]. split; [exact H1|]. split; [exact H2|]. split; [exact H3|].
    intros name dflt get Hin. rewrite !elem_of_cons, elem_of_nil in Hin. destruct Hin as [[= -> -> ->]|[[= -> -> ->]|[[= -> -> ->]|[]]]]; assumption.
  - destruct e as [c'| | |]; try discriminate. injection Ee as ->. inversion He as [ls wss ? ? ? ? ? Hk| | |]; subst. exists kvs, wss.
    destruct Hb as (K1 & K2 & K3 & K4 & K5 & K6). destruct Hk as (L1 & L2 & L3 & L4 & L5 & L6). split; [exact Hf|].
    split; [rewrite Hs; cbn; intros ->; congruence|]. split; [rewrite L1, K1; reflexivity|]. split; [rewrite L2, K2; reflexivity|]. split; [rewrite L3, K3; reflexivity|].
    unfold int_field, int_setting in *.
    intros name dflt get Hin. rewrite !elem_of_cons, elem_of_nil in Hin. destruct Hin as [[= -> -> ->]|[[= -> -> ->]|[[= -> -> ->]|[]]]].
    + destruct (last_arg "port" wss); [exact L4|]. rewrite L4. exact K4.
    + destruct (last_arg "segnum" wss); [exact L5|]. rewrite L5. exact K5.
    + destruct (last_arg "dbnum" wss); [exact L6|]. rewrite L6. exact K6.
Qed.
End Start.

(** Numbers written the usual way mean the same on the command line and in the file. *)
Lemma digit_ten c : is_digit c -> is_digit_of 10 c (digit_value c).
Proof.
  intros Hc. apply digit_in_spec; [unfold based; auto|]. unfold is_digit in Hc. unfold digit_in, digit_value. cbv zeta.
  replace ((48 <=? code c) && (code c <=? 57))%N with true by (symmetry; apply andb_true_iff; rewrite !N.leb_le; lia).
  destruct (Z.ltb_spec (Z.of_N (code c) - 48) 10); [reflexivity|lia].
Qed.
Lemma further_decimal ds a : Forall is_digit ds -> further 10 ds a (dec_from a ds).
Proof.
  revert a. induction ds as [|c ds IH]; intros a H; [constructor|]. apply Forall_cons_1 in H as [H1 H2]. unfold dec_from. cbn [fold_left].
  eapply fu_digit; [apply digit_ten; exact H1|]. replace (a * 10 + digit_value c) with (10 * a + digit_value c) by lia. apply IH. exact H2.
Qed.
Lemma literal_decimal c ds : Forall is_digit (c :: ds) -> c <> "0"%char -> literal (c :: ds) (decimal (c :: ds)).
Proof.
  intros H Hc. apply Forall_cons_1 in H as [H1 H2]. apply (lit_decimal c (digit_value c)); [apply digit_ten; exact H1| |].
  - intros E. apply Hc. unfold digit_value, code in E. rewrite <- (ascii_N_embedding c). replace (N_of_ascii c) with 48%N by lia. reflexivity.
  - unfold decimal. cbn [fold_left]. replace (10 * 0 + digit_value c) with (digit_value c) by lia. apply further_decimal. exact H2.
Qed.
Theorem canonical_word s n : canonical s -> denotes s n -> fits64 n -> int_word s n.
Proof.
  intros Hs Hd Hf. split; [exact Hf|]. destruct Hs as [->|(c & ds & Hs & HF & Hc)].
  - assert (n = 0) as ->.
    { destruct Hd as (ds & _ & _ & [[[<-|E] ->]|[E ->]]); [reflexivity|discriminate..]. }
    exists (B "0"), 0. split; [apply (lit_octal []); constructor|]. left. auto.
  - exists (c :: ds), (decimal (c :: ds)). split; [apply literal_decimal; auto|].
    assert (Hpm : c <> "+"%char /\ c <> "-"%char). { apply Forall_cons_1 in HF as [HF _]. unfold is_digit in HF. split; intros ->; destruct HF as [HF _]; apply HF; reflexivity. }
    destruct Hd as (ds' & Hne & HF' & Hd). assert (Hpm' : forall c' r, ds' = c' :: r -> c' <> "+"%char /\ c' <> "-"%char).
    { intros c' r ->. apply Forall_cons_1 in HF' as [HF' _]. unfold is_digit in HF'. split; intros ->; destruct HF' as [HF' _]; apply HF'; reflexivity. }
    destruct ds' as [|c' r]; [congruence|]. specialize (Hpm' _ _ eq_refl). change (B "-" ++ c :: ds) with ("-"%char :: c :: ds) in *.
    change (B "+" ++ c' :: r) with ("+"%char :: c' :: r) in Hd. change (B "-" ++ c' :: r) with ("-"%char :: c' :: r) in Hd.
    destruct Hs as [-> | ->]; [left; split; [auto|]|right; split; [auto|]]; destruct Hd as [[[E|E] ->]|[E ->]]; injection E as ? ?; subst; first [reflexivity|discriminate|exfalso; tauto].
Qed.
Theorem serves_some sys fuel args c : main sys fuel args = Some (Serves c) -> 1 <= dbnum c.
Proof. intros H. assert (G : exists fuel, main sys fuel args = Some (Serves c)) by eauto. apply start_serves in G as (_ & _ & _ & G & _). lia. Qed.
