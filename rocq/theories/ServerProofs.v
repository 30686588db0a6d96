(** The manager, the connection loop, and the two together with the parser. *)
From Verif Require Export SpecServer WireProofs Replies GenericFacts.

Section WithParams.
Context {P : Setup}.

Definition wf_mgr (m : manager) : Prop := (cur m < length (mdbs m))%nat.
Lemma wf_mgr_cur m : wf_mgr m -> exists d, mdbs m !! cur m = Some d.
Proof. intros H. apply lookup_lt_is_Some_2 in H as [d Hd]. eauto. Qed.

Lemma new_manager_wf n m : new_manager n = Some m -> wf_mgr m /\ length (mdbs m) = Z.to_nat n /\ cur m = 0%nat.
Proof.
  unfold new_manager. destruct (make_ok n 8 && (0 <? n)) eqn:E; [|discriminate]. intros [= <-].
  apply andb_true_iff in E as [_ E]. apply Z.ltb_lt in E. unfold wf_mgr. cbn. rewrite replicate_length. repeat split; lia.
Qed.

(** ** SELECT *)
Lemma select_selects m cmd : is_select cmd = true ->
  (forall i, selects (zlen (mdbs m)) cmd = Some i -> select m cmd = (ok, mkMgr i (mdbs m))) /\
  (selects (zlen (mdbs m)) cmd = None -> (select m cmd).2 = m /\ (select m cmd).1 <> ok).
Proof.
  intros Hs. unfold selects, select. destruct cmd as [|n [|a [|]]]; try (split; [discriminate|split; [auto|discriminate]]).
  rewrite Hs. destruct (atoi (str a)) as [i|]; [|split; [discriminate|split; [auto|discriminate]]].
  destruct (Z.leb_spec 0 i), (Z.ltb_spec i (zlen (mdbs m))), (Z.leb_spec (zlen (mdbs m)) i), (Z.ltb_spec i 0);
    try lia; cbn; split; try discriminate; intros; try congruence; split; auto; discriminate.
Qed.
Lemma selects_lt m cmd i : selects (zlen (mdbs m)) cmd = Some i -> (i < length (mdbs m))%nat /\ is_select cmd = true.
Proof.
  unfold selects. destruct cmd as [|n [|a [|]]]; try discriminate. destruct (is_select [n; a]); [|discriminate].
  destruct (atoi (str a)) as [k|]; [|discriminate].
  destruct (Z.leb_spec 0 k), (Z.ltb_spec k (zlen (mdbs m))); cbn; try discriminate. intros [= <-]. unfold zlen in *. split; auto. lia.
Qed.
Lemma mexec_select m cmd i T out : selects (zlen (mdbs m)) cmd = Some i ->
  mexec T m cmd out <-> out = MDone ok (mkMgr i (mdbs m)).
Proof.
  intros H. destruct (selects_lt _ _ _ H) as [_ Hs]. destruct (select_selects m cmd Hs) as [H1 _]. specialize (H1 i H). split.
  - intros Hx. inversion Hx; subst; try congruence. rewrite H1. auto.
  - intros ->. pose proof (mx_select T m cmd Hs) as Hx. rewrite H1 in Hx. exact Hx.
Qed.
Lemma mexec_select_bad m cmd T out : is_select cmd = true -> selects (zlen (mdbs m)) cmd = None ->
  mexec T m cmd out -> exists r, out = MDone r m /\ r <> ok.
Proof.
  intros Hs H Hx. destruct (select_selects m cmd Hs) as [_ H1]. destruct (H1 H) as [E1 E2].
  inversion Hx; subst; try congruence. rewrite E1. eauto.
Qed.
(** ** One command touches at most the selected database *)
Definition mgr_of (o : mout) : manager := match o with MDone _ m => m | MCrash m => m | MHang m => m end.
Lemma mexec_other T m cmd out j : mexec T m cmd out -> j <> cur m -> mdbs (mgr_of out) !! j = mdbs m !! j.
Proof.
  intros Hx Hj. inversion Hx; subst; cbn; try (rewrite list_lookup_insert_ne; auto).
  unfold select. repeat match goal with |- context [match ?x with _ => _ end] => destruct x end; auto.
Qed.
Lemma mexec_length T m cmd out : mexec T m cmd out -> length (mdbs (mgr_of out)) = length (mdbs m).
Proof.
  intros Hx. inversion Hx; subst; cbn; try (rewrite insert_length; auto).
  unfold select. repeat match goal with |- context [match ?x with _ => _ end] => destruct x end; auto.
Qed.
Lemma mexec_cur T m cmd out : mexec T m cmd out -> is_select cmd = false -> cur (mgr_of out) = cur m.
Proof. intros Hx Hs. inversion Hx; subst; cbn; auto; congruence. Qed.
Lemma mexec_wf T m cmd out : wf_mgr m -> mexec T m cmd out -> wf_mgr (mgr_of out).
Proof.
  intros Hw Hx. unfold wf_mgr. rewrite (mexec_length _ _ _ _ Hx).
  destruct (is_select cmd) eqn:Hs; [|rewrite (mexec_cur _ _ _ _ Hx Hs); auto].
  destruct (selects (zlen (mdbs m)) cmd) as [i|] eqn:E.
  - pose proof (selects_lt _ _ _ E) as [Hl _]. apply (mexec_select _ _ _ T _ E) in Hx as ->. exact Hl.
  - apply mexec_select_bad in Hx as (r & -> & _); auto.
Qed.
(** Something happens for every command. *)
Lemma mexec_total m cmd (t : Z) : wf_mgr m -> exists out, mexec (eq t) m cmd out.
Proof.
  intros Hw. destruct (is_select cmd) eqn:Hs; [eexists; apply mx_select; auto|].
  destruct (wf_mgr_cur m Hw) as [d Hd]. pose proof (run_runs t d (exec_in_db cmd)) as R.
  destruct (run t d (exec_in_db cmd)); eexists; [eapply mx_done|eapply mx_crash|eapply mx_hang]; eauto.
Qed.

(** ** Histories *)
Lemma executes_addressed m cs rs m' : executes m cs rs m' -> length (mdbs m') = length (mdbs m) /\
  forall i d, mdbs m !! i = Some d ->
  exists d', mdbs m' !! i = Some d' /\ runs_all d (addressed (zlen (mdbs m)) (cur m) cs i) d'.
Proof.
  induction 1 as [m|m c cs r rs m1 m' Hx Hr [IHl IH]]; [split; auto; intros i d Hd; exists d; split; auto; constructor|].
  pose proof (mexec_length _ _ _ _ Hx) as Hl. cbn in Hl. split; [congruence|]. intros i d Hd.
  replace (zlen (mdbs m1)) with (zlen (mdbs m)) in IH by (unfold zlen; rewrite Hl; auto).
  cbn [addressed]. destruct (is_select c) eqn:Hs.
  - assert (E : mdbs m1 = mdbs m).
    { inversion Hx; subst; try congruence. unfold select.
      repeat match goal with |- context [match ?x with _ => _ end] => destruct x end; auto. }
    destruct (selects (zlen (mdbs m)) c) as [j|] eqn:E2.
    + apply (mexec_select _ _ _ _ _ E2) in Hx. injection Hx as -> ->. apply IH; auto.
    + apply mexec_select_bad in Hx as (r' & Hx & _); auto. injection Hx as -> ->. cbn. apply IH; auto.
  - assert (Es : selects (zlen (mdbs m)) c = None).
    { unfold selects. destruct c as [|? [|? []]]; auto. rewrite Hs. auto. }
    rewrite Es. cbn [negb andb]. destruct (Nat.eqb_spec (cur m) i) as [<-|Hne].
    + inversion Hx as [|d0 r0 d1 _ Hd0 Hrun| |]; subst; [congruence|]. rewrite Hd in Hd0. injection Hd0 as <-.
      destruct (IH (cur m) d1) as (d' & Hd' & Hra).
      { cbn. apply list_lookup_insert. apply lookup_lt_Some in Hd. auto. }
      exists d'. split; auto. econstructor; [exact Hrun|exact Hra].
    + pose proof (mexec_cur _ _ _ _ Hx Hs) as Hc. cbn in Hc.
      destruct (IH i d) as (d' & Hd' & Hra).
      { pose proof (mexec_other _ _ _ _ i Hx ltac:(auto)) as E. cbn in E. congruence. }
      rewrite Hc in Hra. eauto.
Qed.
Lemma executes_wf m cs rs m' : wf_mgr m -> executes m cs rs m' -> wf_mgr m'.
Proof. intros Hw H. induction H; auto. apply IHexecutes. apply (mexec_wf _ _ _ _ Hw H). Qed.

(** One connection: the shared selection is as good as a private one. *)
Lemma single_connection m cs rs m' : executes m cs rs m' -> forall i pm, pcur pm i = cur m -> pdbs pm = mdbs m ->
  exists pm', pexecutes pm (map (fun c => (i, c)) cs) rs pm' /\ pcur pm' i = cur m' /\ pdbs pm' = mdbs m'.
Proof.
  induction 1 as [m|m c cs r rs m1 m' Hx Hr IH]; intros i pm Hc Hd; cbn.
  - exists pm. split; [constructor|auto].
  - edestruct (IH i (mkPm (fun j => if Nat.eqb j i then cur m1 else pcur pm j) (mdbs m1))) as (pm' & H1 & H2 & H3);
      [cbn; rewrite Nat.eqb_refl; auto|auto|].
    exists pm'. split; [|auto]. econstructor; [|exact H1]. constructor. rewrite Hc, Hd. destruct m; exact Hx.
Qed.

(** ** Replies *)
Lemma echoes_may cmd : is_select cmd = false -> echoes cmd -> may_echo cmd.
Proof.
  unfold echoes, may_echo, is_select, named. destruct cmd as [|n args]; auto. intros Hs [H|H]; [|tauto].
  right. right. right. split.
  - intros E. rewrite E, beq_refl in Hs. discriminate.
  - intros s a Hin E. assert (Hi : to_lower (str n) ∈ map fst cmd_table) by (apply names_in; eauto).
    apply assoc_some in Hi as [x Hx]. unfold lookup_cmd in H. congruence.
Qed.
Lemma mexec_sendable T m cmd r m' : (may_echo cmd -> crlf_free cmd) -> mexec T m cmd (MDone r m') -> sendable r.
Proof.
  intros Hc Hx. inversion Hx; subst.
  - unfold select. destruct cmd as [|n [|a [|]]]; try (apply sd_err; apply no_crlfb_spec; reflexivity).
    destruct (atoi (str a)) as [i|]; [|apply sd_err; apply no_crlfb_spec; reflexivity].
    destruct (_ || _); [|apply sd_str; apply no_crlfb_spec; reflexivity].
    apply sd_str. apply no_crlf_app; [apply no_crlfb_spec; reflexivity|].
    destruct (fmt_int_denotes (zlen (mdbs m))) as (ds & _ & HF & H).
    assert (Hn : no_crlf ds) by (eapply List.Forall_impl; [|exact HF]; unfold is_digit; intros c Hcc; lia).
    destruct H as [[[->| ->] _]|[-> _]]; auto; apply no_crlf_app; auto; apply no_crlfb_spec; reflexivity.
  - assert (Hc' : echoes cmd -> clean cmd) by (intros He; apply Hc; apply echoes_may; auto).
    pose proof (rets_runs sendable _ _ _ _ (replies_sendable cmd Hc') H3) as Hs. exact Hs.
Qed.

(** ** The connection loop *)
Lemma handle_cmds cs : forall m e0 l outs e m', Forall (fun c => may_echo c -> crlf_free c) cs ->
  handle m (map cmd_event cs ++ EvErr e0 :: l) outs e m' ->
  exists cs1 cs2 rs m1, cs = cs1 ++ cs2 /\ executes m cs1 rs m1 /\ Forall2 frame rs outs /\
    match cs2 with
    | [] => e = HReturns /\ m' = m1
    | c :: _ => (e = HCrashes /\ mexec (fun _ => True) m1 c (MCrash m')) \/ (e = HHangs /\ mexec (fun _ => True) m1 c (MHang m'))
    end.
Proof.
  induction cs as [|c cs IH]; intros m e0 l outs e m' HF H; cbn [map app] in H.
    - inversion H; subst. exists [], [], [], m'. repeat split; auto; constructor.
    - inversion HF as [|? ? Hc HF']; subst. inversion H; subst.
      + exfalso. match goal with H : forall l, _ <> RArr l |- _ => eapply H; reflexivity end.
      + rewrite cmd_event_command in *. match goal with H : Some _ = Some _ |- _ => injection H as <- end.
        match goal with Hx : mexec _ _ _ _ |- _ => pose proof (mexec_sendable _ _ _ _ _ Hc Hx) as Hs end.
        destruct (enc_frame r Hs) as (f0 & Ef & Hf).
        assert (f0 = f) as ->. { destruct Hs; cbn [reply_bytes] in *; congruence. }
        match goal with Hh : handle m1 _ _ _ _ |- _ => apply IH in Hh as (cs1 & cs2 & rs & m2 & -> & Hex & Hfs & He); auto end.
        exists (c :: cs1), cs2, (r :: rs), m2. repeat split; auto. econstructor; eauto.
      + rewrite cmd_event_command in *. discriminate.
      + rewrite cmd_event_command in *. match goal with H : Some _ = Some _ |- _ => injection H as <- end.
        exists [], (c :: cs), [], m. repeat split; auto; constructor.
      + rewrite cmd_event_command in *. match goal with H : Some _ = Some _ |- _ => injection H as <- end.
        exists [], (c :: cs), [], m. repeat split; auto; constructor.
      + rewrite cmd_event_command in *. match goal with H : Some _ = Some _ |- _ => injection H as <- end.
        match goal with Hx : mexec _ _ _ _ |- _ => pose proof (mexec_sendable _ _ _ _ _ Hc Hx) as Hs end.
        destruct (enc_frame r Hs) as (f0 & Ef & Hf). exfalso.
        destruct Hs; cbn [reply_bytes] in *; congruence.
Qed.
End WithParams.

Section Sessions.
Context {P : Setup}.
(** A whole connection: bytes in, frames out. *)
Theorem session_exact m cs st outs e m' : sends cs (concat st) ->
  Forall (fun c => may_echo c -> crlf_free c) cs -> handle m (parse_stream st).1 outs e m' ->
  exists cs1 cs2 rs m1, cs = cs1 ++ cs2 /\ executes m cs1 rs m1 /\ Forall2 frame rs outs /\
    match cs2 with
    | [] => e = HReturns /\ m' = m1
    | c :: _ => (e = HCrashes /\ mexec (fun _ => True) m1 c (MCrash m')) \/ (e = HHangs /\ mexec (fun _ => True) m1 c (MHang m'))
    end.
Proof. intros Hs HF H. rewrite (pipeline_exact cs st Hs) in H. cbn [fst] in H. eapply handle_cmds; eauto. Qed.
Theorem session_cut m cs p q st outs e m' : sends cs (p ++ q) -> concat st = p ->
  Forall (fun c => may_echo c -> crlf_free c) cs -> handle m (parse_stream st).1 outs e m' ->
  exists cs1 cs2 cs3 s1 s2 rs m1, cs = cs1 ++ cs2 ++ cs3 /\ sends (cs1 ++ cs2) s1 /\ p = s1 ++ s2 /\
    (s2 = [] \/ exists c cs4 f, cs3 = c :: cs4 /\ cmd_frame c f /\ cut s2 f) /\
    executes m cs1 rs m1 /\ Forall2 frame rs outs /\
    match cs2 with
    | [] => e = HReturns /\ m' = m1
    | c :: _ => (e = HCrashes /\ mexec (fun _ => True) m1 c (MCrash m')) \/ (e = HHangs /\ mexec (fun _ => True) m1 c (MHang m'))
    end.
Proof.
  intros Hs Hp HF H. destruct (truncated cs p q st Hs Hp) as (ca & cb & s1 & p1 & -> & Hs1 & -> & Hcut & evs & Hev & He).
  rewrite Hev in H. cbn [fst] in H. apply Forall_app in HF as [HF _].
  assert (Hx : exists e0 l, evs = EvErr e0 :: l) by (destruct He as [->| ->]; eauto).
  destruct Hx as (e0 & l & ->). apply handle_cmds in H as (cs1 & cs2 & rs & m1 & -> & H1 & H2 & H3); auto.
  exists cs1, cs2, cb, s1, p1, rs, m1. rewrite app_assoc. repeat split; auto.
Qed.
End Sessions.

Section Names.
Context {P : Setup}.
(** ** Command names at the server level *)
Lemma mexec_case T m n1 n2 args out : same_upto_case (str n1) (str n2) ->
  named n1 "select" \/ (exists s a, In (s, a) arity_table /\ named n1 s) ->
  mexec T m (n1 :: args) out <-> mexec T m (n2 :: args) out.
Proof.
  intros Hc Hn. pose proof (to_lower_case _ _ Hc) as El.
  assert (Es : is_select (n1 :: args) = is_select (n2 :: args)) by (unfold is_select; rewrite El; auto).
  assert (Ese : select m (n1 :: args) = select m (n2 :: args)) by reflexivity.
  destruct Hn as [Hn|Hn].
  - assert (Et : is_select (n1 :: args) = true) by (unfold is_select; rewrite Hn; apply beq_refl).
    assert (Et2 : is_select (n2 :: args) = true) by congruence.
    split; intros Hx; inversion Hx; subst; try congruence.
    + rewrite Ese. apply mx_select; auto.
    + rewrite <- Ese. apply mx_select; auto.
  - apply names_in in Hn. apply assoc_some in Hn as [ex Hex].
    assert (Ex : exec_in_db (n1 :: args) = exec_in_db (n2 :: args)) by (eapply exec_case; eauto).
    split; intros Hx; inversion Hx; subst.
    + rewrite Ese. apply mx_select; congruence.
    + rewrite Ex in *. eapply mx_done; eauto; congruence.
    + rewrite Ex in *. eapply mx_crash; eauto; congruence.
    + rewrite Ex in *. eapply mx_hang; eauto; congruence.
    + rewrite <- Ese. apply mx_select; congruence.
    + rewrite <- Ex in *. eapply mx_done; eauto; congruence.
    + rewrite <- Ex in *. eapply mx_crash; eauto; congruence.
    + rewrite <- Ex in *. eapply mx_hang; eauto; congruence.
Qed.
Lemma put_db_same m d : mdbs m !! cur m = Some d -> put_db m d = m.
Proof. intros H. unfold put_db. rewrite list_insert_id by auto. destruct m; auto. Qed.
Lemma mexec_unknown T m n args out : (cur m < length (mdbs m))%nat ->
  ~ named n "select" -> (forall s a, In (s, a) arity_table -> ~ named n s) ->
  mexec T m (n :: args) out <-> out = MDone (RErr (B "unknown command '" ++ str n ++ B "'")) m.
Proof.
  intros Hw Hs Hn. destruct (wf_mgr_cur m Hw) as [d Hd].
  assert (Es : is_select (n :: args) = false).
  { unfold is_select. destruct (beq (to_lower (str n)) (B "select")) eqn:E; auto. apply beq_true in E. destruct (Hs E). }
  assert (Ex : exec_in_db (n :: args) = Ret (RErr (B "unknown command '" ++ str n ++ B "'"))).
  { unfold exec_in_db, lookup_cmd. rewrite assoc_none; auto. rewrite names_in. intros (s & a & Hi & E). eapply Hn; eauto. }
  split.
  - intros Hx. inversion Hx as [|d0 r d' _ Hd0 Hr|d0 d' _ Hd0 Hr|d0 d' _ Hd0 Hr]; subst; try congruence;
      rewrite Ex in Hr; inversion Hr; subst. rewrite put_db_same; auto.
  - intros ->. rewrite <- (put_db_same m d Hd) at 2. eapply mx_done; eauto. rewrite Ex. constructor.
Qed.
Lemma executes_length m cs rs m' : executes m cs rs m' -> length rs = length cs.
Proof. induction 1; cbn; auto. Qed.
End Names.
Lemma new_manager_start {P : Setup} n m : new_manager n = Some m ->
  cur m = 0%nat /\ length (mdbs m) = Z.to_nat n /\ (0 < length (mdbs m))%nat /\ Forall (eq empty_db) (mdbs m).
Proof.
  intros H. destruct (new_manager_wf n m H) as (Hw & Hl & Hc). unfold wf_mgr in Hw. repeat split; auto; [lia|].
  unfold new_manager in H. destruct (make_ok n 8 && (0 <? n)); [|discriminate]. injection H as <-. cbn.
  apply List.Forall_forall. intros d Hd. apply elem_of_list_In, elem_of_replicate in Hd as [-> _]. auto.
Qed.
