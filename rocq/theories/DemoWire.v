(** Concrete byte streams for the examples. *)
From Verif Require Export ServerProofs Demo.

Definition wire_arg (v : val) : bytes :=
  match v with None => B "$-1" ++ CRLF | Some s => B "$" ++ fmt_int (zlen s) ++ CRLF ++ s ++ CRLF end.
Definition wire (c : command) : bytes := B "*" ++ fmt_int (zlen c) ++ CRLF ++ concat (map wire_arg c).
Definition small (c : command) : bool :=
  match c with [] => false | _ => (zlen c <? 1000) && forallb (fun v => zlen (str v) <? 1000) c end.
Lemma wire_frame c : small c = true -> cmd_frame c (wire c).
Proof.
  unfold small. intros H. assert (Hc : c <> []) by (destruct c; [discriminate|discriminate]).
  assert (H' : (zlen c <? 1000) && forallb (fun v => zlen (str v) <? 1000) c = true) by (destruct c; [congruence|auto]).
  apply andb_true_iff in H' as [H1 H2]. apply Z.ltb_lt in H1. constructor; auto.
  - apply fmt_int_denotes.
  - unfold fits64, zlen in *. lia.
  - clear H H1 Hc. induction c as [|v c IH]; cbn; constructor.
    + cbn in H2. apply andb_true_iff in H2 as [H2 _]. apply Z.ltb_lt in H2. destruct v as [s|]; cbn in *.
      * constructor; [apply fmt_int_denotes|]. lia.
      * apply (af_null (B "-1")). apply m1_denotes.
    + apply IH. cbn in H2. apply andb_true_iff in H2 as [_ H2]. auto.
Qed.
Lemma wire_sends cs : forallb small cs = true -> sends cs (concat (map wire cs)).
Proof.
  induction cs as [|c cs IH]; cbn [forallb map concat]; intros H; [constructor|]. apply andb_true_iff in H as [H1 H2].
  constructor; auto. apply wire_frame; auto.
Qed.
Lemma sends_by cs s : forallb small cs && bool_decide (concat (map wire cs) = s) = true -> sends cs s.
Proof. intros H. apply andb_true_iff in H as [H1 H2]. apply bool_decide_eq_true in H2 as <-. apply wire_sends; auto. Qed.
Ltac sends := apply sends_by; vm_compute; reflexivity.
(** The client's CR LF written as an ampersand, for readability. *)
Definition W (s : string) : bytes :=
  concat (map (fun c => if bool_decide (c = "&"%char) then CRLF else [c]) (B s)).

(** ** Facts used in PropWire.v *)
Theorem enc_decodes d : sendable d -> exists f, enc d = Some f /\ frame d f /\
  forall r d' r', decodes (f ++ r) d' r' <-> d' = d /\ r' = r.
Proof.
  intros H. destruct (enc_frame d H) as (f & E & Hf). exists f. split; auto. split; auto. intros r d' r'. split.
  - intros Hd. assert (Hd0 : decodes (f ++ r) d r) by (exists f; auto).
    destruct (decodes_fun _ _ _ _ _ Hd Hd0) as [-> ->]. auto.
  - intros [-> ->]. exists f. auto.
Qed.
Theorem enc_crlf : enc (RErr (W "a&+b")) = Some (W "-a&+b&") /\
  frames [RErr (B "a"); RStr (B "b")] (W "-a&+b&") /\ ~ frame (RErr (W "a&+b")) (W "-a&+b&").
Proof.
  split; [reflexivity|]. split.
  - apply (frs_cons _ _ (W "-a&") (W "+b&")); [apply (fr_err (B "a")); apply no_crlfb_spec; reflexivity|].
    apply (frs_cons _ _ (W "+b&") []); [apply (fr_str (B "b")); apply no_crlfb_spec; reflexivity|constructor].
  - intros H. assert (Hn : no_crlf (W "a&+b")) by (inversion H; auto). unfold no_crlf in Hn. rewrite List.Forall_forall in Hn.
    destruct (Hn (ascii_of_N 13)) as [Hn' _]; [right; left; reflexivity|]. apply Hn'. reflexivity.
Qed.
Theorem no_parser_crash cs st : sends cs (concat st) ->
  (parse_stream st).2 = Closed /\ forall e, In (EvErr e) (parse_stream st).1 -> e = EEof.
Proof.
  intros H. rewrite (pipeline_exact cs st H). split; [reflexivity|]. cbn [fst]. intros e He.
  apply in_app_or in He as [He|[He|[]]]; [|congruence]. apply in_map_iff in He as (c & Hc & _). discriminate.
Qed.
Theorem handler_crashes {P : Setup} m d : mdbs m !! cur m = Some d ->
  (exists m', handle m (parse_stream [W "*0&"]).1 [] HCrashes m') /\
  (exists m', handle m (parse_stream [W "*-1&"]).1 [] HCrashes m') /\
  (exists m', handle m (parse_stream [W "*1&hello&"]).1 [] HCrashes m').
Proof.
  intros Hd. assert (Hx : mexec (fun _ => True) m [] (MCrash (put_db m d))) by (eapply mx_crash; eauto; constructor).
  assert (E1 : (parse_stream [W "*0&"]).1 = [EvData (RArr (Some [])); EvErr EEof]) by reflexivity.
  assert (E2 : (parse_stream [W "*-1&"]).1 = [EvData (RArr None); EvErr EEof]) by reflexivity.
  assert (E3 : (parse_stream [W "*1&hello&"]).1 = [EvData (RArr (Some [RNil])); EvErr EEof]) by reflexivity.
  rewrite E1, E2, E3. repeat split; eexists.
  - eapply h_crash; [reflexivity|exact Hx].
  - eapply h_crash; [reflexivity|exact Hx].
  - eapply h_badcmd. reflexivity.
Qed.
Theorem fmt_atoi n : fits64 n -> denotes (fmt_int n) n /\ atoi (fmt_int n) = Some n.
Proof. intros H. split; [apply fmt_int_denotes|]. apply atoi_fmt_int. unfold fits64, min_int, max_int in *. lia. Qed.

Section DemoServer.
#[local] Existing Instance demo_setup.
(** One command on a server with one database. *)
Definition mrun (now : Z) (m : manager) (c : command) : option (rdata * manager) :=
  if is_select c then Some (select m c)
  else match mdbs m !! cur m with
       | Some d => match run now d (exec_in_db c) with Done r d' => Some (r, put_db m d') | _ => None end
       | None => None
       end.
Lemma mrun_mexec now m c r m' : mrun now m c = Some (r, m') -> mexec (eq now) m c (MDone r m').
Proof.
  unfold mrun. destruct (is_select c) eqn:E.
  - intros H. injection H as H. pose proof (mx_select (eq now) m c E) as Hx. rewrite H in Hx. exact Hx.
  - destruct (mdbs m !! cur m) as [d|] eqn:Ed; [|discriminate]. pose proof (run_runs now d (exec_in_db c)) as R.
    destruct (run now d (exec_in_db c)); try discriminate. intros [= <- <-]. eapply mx_done; eauto.
Qed.
End DemoServer.

Section DemoServer2.
#[local] Existing Instance demo_setup.
Theorem c05_example :
  ~ may_echo (C ["get"; "s"]) /\ crlf_free (C ["set"; "s"; "x"; "bogus"]) /\
  mexec (fun _ => True) (mkMgr 0 [demo]) (C ["nope"]) (MDone (RErr (B "unknown command 'nope'")) (mkMgr 0 [demo])).
Proof.
  split; [|split].
  - intros [H|[H|[H|[_ H]]]]; [discriminate..|]. apply (H "get" (Between 2 2)); [|reflexivity]. vm_compute. tauto.
  - repeat constructor; discriminate.
  - apply (mx_done _ (mkMgr 0 [demo]) _ demo _ demo); [reflexivity..|]. constructor.
Qed.
Theorem c05_injection :
  mexec (fun _ => True) (mkMgr 0 [demo]) [Some (W "x&+OK")] (MDone (RErr (W "unknown command 'x&+OK'")) (mkMgr 0 [demo])) /\
  enc (RErr (W "unknown command 'x&+OK'")) = Some (W "-unknown command 'x&+OK'&") /\
  frames [RErr (B "unknown command 'x"); RStr (B "OK'")] (W "-unknown command 'x&+OK'&").
Proof.
  split; [|split].
  - apply (mx_done _ (mkMgr 0 [demo]) _ demo _ demo); [reflexivity..|]. constructor.
  - reflexivity.
  - apply (frs_cons _ _ (W "-unknown command 'x&") (W "+OK'&")).
    { apply (fr_err (B "unknown command 'x")); apply no_crlfb_spec; reflexivity. }
    apply (frs_cons _ _ (W "+OK'&") []); [apply (fr_str (B "OK'")); apply no_crlfb_spec; reflexivity|constructor].
Qed.
End DemoServer2.

(** ** Deterministic commands *)
Fixpoint detrun {A} (d : db) (p : prog A) : option (outcome A) :=
  match p with
  | Ret a => Some (Done a d)
  | Crash => Some (Crashes d)
  | Hang => Some (Hangs d)
  | Now _ | Range _ _ | DSeg _ _ => None
  | DGet key k => detrun d (k (dict d !! key))
  | DSet key v k => detrun (mkDb (<[key := v]> (dict d)) (exps d) (cnt d)) (k (match dict d !! key with Some _ => false | None => true end))
  | DMut key v k => detrun (mkDb (alter (fun _ => v) key (dict d)) (exps d) (cnt d)) k
  | DDel key k => detrun (mkDb (delete key (dict d)) (exps d) (cnt d)) (k (match dict d !! key with Some _ => true | None => false end))
  | CntLoad k => detrun d (k (cnt d))
  | CntStore c k => detrun (mkDb (dict d) (exps d) c) k
  | EGet key k => detrun d (k (exps d !! key))
  | ESet key t k => detrun (mkDb (dict d) (<[key := t]> (exps d)) (cnt d)) k
  | EDel key k => detrun (mkDb (dict d) (delete key (exps d)) (cnt d)) (k (match exps d !! key with Some _ => true | None => false end))
  | Acq _ _ k | Rel _ _ k => detrun d k
  end.
Lemma detrun_runs {P : Setup} {A} T d (p : prog A) out : runs T d p out -> forall o, detrun d p = Some o -> o = out.
Proof. induction 1; cbn; intros o Ho; try discriminate; try (injection Ho as <-; reflexivity); auto. Qed.
Lemma detrun_ok {P : Setup} {A} T (p : prog A) : forall d o, detrun d p = Some o -> runs T d p o.
Proof.
  induction p; cbn; intros d o Ho; try discriminate;
    try (injection Ho as <-; constructor); constructor; eauto.
Qed.
(** Commands of several connections, each with its own selected database, and all with one. *)
Section DemoServer3.
#[local] Existing Instance demo_setup.
Definition mdet (m : manager) (c : command) : option (rdata * manager) :=
  if is_select c then Some (select m c)
  else match mdbs m !! cur m with
       | Some d => match detrun d (exec_in_db c) with Some (Done r d') => Some (r, put_db m d') | _ => None end
       | None => None
       end.
Lemma mdet_ok T m c r m' : mdet m c = Some (r, m') -> mexec T m c (MDone r m').
Proof.
  unfold mdet. destruct (is_select c) eqn:E.
  - intros H. injection H as H. pose proof (mx_select T m c E) as Hx. rewrite H in Hx. exact Hx.
  - destruct (mdbs m !! cur m) as [d|] eqn:Ed; [|discriminate].
    destruct (detrun d (exec_in_db c)) as [[r0 d0| |]|] eqn:Er; try discriminate. intros [= <- <-].
    eapply mx_done; eauto. apply detrun_ok; auto.
Qed.
Lemma mdet_only T m c r m' out : mdet m c = Some (r, m') -> mexec T m c out -> out = MDone r m'.
Proof.
  unfold mdet. intros H Hx. destruct Hx as [E|d r1 d1 E Ed Hr|d d1 E Ed Hr|d d1 E Ed Hr]; rewrite E in H.
  - injection H as H. rewrite H. reflexivity.
  - rewrite Ed in H. destruct (detrun d (exec_in_db c)) as [o|] eqn:Eo; [|discriminate].
    rewrite (detrun_runs _ _ _ _ Hr _ Eo) in H. congruence.
  - rewrite Ed in H. destruct (detrun d (exec_in_db c)) as [o|] eqn:Eo; [|discriminate].
    rewrite (detrun_runs _ _ _ _ Hr _ Eo) in H. congruence.
  - rewrite Ed in H. destruct (detrun d (exec_in_db c)) as [o|] eqn:Eo; [|discriminate].
    rewrite (detrun_runs _ _ _ _ Hr _ Eo) in H. congruence.
Qed.
Fixpoint mdets (m : manager) (cs : list command) : option (list rdata * manager) :=
  match cs with
  | [] => Some ([], m)
  | c :: cs => match mdet m c with
               | Some (r, m1) => match mdets m1 cs with Some (rs, m') => Some (r :: rs, m') | None => None end
               | None => None
               end
  end.
Lemma mdets_ok cs : forall m rs m', mdets m cs = Some (rs, m') -> executes m cs rs m'.
Proof.
  induction cs as [|c cs IH]; cbn; intros m rs m' H; [injection H as <- <-; constructor|].
  destruct (mdet m c) as [[r m1]|] eqn:E; [|discriminate]. destruct (mdets m1 cs) as [[rs1 m2]|] eqn:E2; [|discriminate].
  injection H as <- <-. econstructor; [apply mdet_ok; eauto|auto].
Qed.
Lemma mdets_only cs : forall m rs m' rs0 m0, mdets m cs = Some (rs, m') -> executes m cs rs0 m0 -> rs0 = rs.
Proof.
  induction cs as [|c cs IH]; cbn; intros m rs m' rs0 m0 H Hx; inversion Hx as [|? ? ? r0 rs2 m4 m5 Hm Hr]; subst; [congruence|].
  destruct (mdet m c) as [[r1 m2]|] eqn:E; [|discriminate]. destruct (mdets m2 cs) as [[rs1 m3]|] eqn:E2; [|discriminate].
  injection H as <- <-. eapply mdet_only in Hm; eauto. injection Hm as -> ->. f_equal. eauto.
Qed.
Fixpoint pdets (pc : nat -> nat) (ds : list db) (cs : list (nat * command)) : option (list rdata) :=
  match cs with
  | [] => Some []
  | (i, c) :: cs => match mdet (mkMgr (pc i) ds) c with
               | Some (r, m1) => match pdets (fun j => if Nat.eqb j i then cur m1 else pc j) (mdbs m1) cs with
                                 | Some rs => Some (r :: rs) | None => None end
               | None => None
               end
  end.
Lemma pdets_ok cs : forall pc ds rs, pdets pc ds cs = Some rs -> exists pm', pexecutes (mkPm pc ds) cs rs pm'.
Proof.
  induction cs as [|[i c] cs IH]; cbn; intros pc ds rs H; [injection H as <-; eexists; constructor|].
  destruct (mdet (mkMgr (pc i) ds) c) as [[r m1]|] eqn:E; [|discriminate].
  destruct (pdets _ (mdbs m1) cs) as [rs1|] eqn:E2; [|discriminate]. injection H as <-.
  apply IH in E2 as [pm' Hp]. exists pm'. econstructor; [|exact Hp].
  apply (px_intro (mkPm pc ds) i c r m1). apply mdet_ok; auto.
Qed.
Lemma pdets_only cs : forall pc ds rs rs0 pm0, pdets pc ds cs = Some rs -> pexecutes (mkPm pc ds) cs rs0 pm0 -> rs0 = rs.
Proof.
  induction cs as [|[i c] cs IH]; cbn; intros pc ds rs rs0 pm0 H Hx; inversion Hx as [|? ? ? ? r0 rs1 pm1 pm2 Hp Hr]; subst; [congruence|].
  inversion Hp as [r1 m1 Hm]; subst. cbn in Hm.
  destruct (mdet (mkMgr (pc i) ds) c) as [[r2 m2]|] eqn:E; [|discriminate].
  eapply mdet_only in Hm; eauto. injection Hm as -> ->. cbn in Hr.
  destruct (pdets _ (mdbs m2) cs) as [rs3|] eqn:E2; [|discriminate]. injection H as <-. f_equal. eauto.
Qed.

Definition two_dbs : manager := mkMgr 0 [empty_db; empty_db].
(** Connection 1 writes, connection 2 selects another database, connection 1 reads. *)
Definition select_story : list (nat * command) :=
  [(1%nat, C ["set"; "x"; "a"]); (2%nat, C ["select"; "1"]); (1%nat, C ["get"; "x"])].
Theorem select_shared :
  (exists m', executes two_dbs (map snd select_story) [ok; ok; RBulk None] m') /\
  (exists pm', pexecutes (mkPm (fun _ => 0%nat) [empty_db; empty_db]) select_story [ok; ok; RBulk (Some (B "a"))] pm') /\
  (forall rs m', executes two_dbs (map snd select_story) rs m' -> rs = [ok; ok; RBulk None]) /\
  (forall rs pm', pexecutes (mkPm (fun _ => 0%nat) [empty_db; empty_db]) select_story rs pm' -> rs = [ok; ok; RBulk (Some (B "a"))]).
Proof.
  assert (E1 : exists m', mdets two_dbs (map snd select_story) = Some ([ok; ok; RBulk None], m')).
  { destruct (mdets two_dbs (map snd select_story)) as [[rs m']|] eqn:E; [|vm_compute in E; discriminate].
    exists m'. f_equal. f_equal. assert (Hf : option_map fst (mdets two_dbs (map snd select_story)) = Some rs) by (rewrite E; auto).
    vm_compute in Hf. injection Hf as <-. reflexivity. }
  assert (E2 : pdets (fun _ => 0%nat) [empty_db; empty_db] select_story = Some [ok; ok; RBulk (Some (B "a"))]) by (vm_compute; reflexivity).
  destruct E1 as [m' E1]. repeat apply conj.
  - exists m'. apply mdets_ok; auto.
  - apply pdets_ok; auto.
  - intros rs m0 H. eapply mdets_only; eauto.
  - intros rs pm' H. eapply pdets_only; eauto.
Qed.
(** Replies of a pipeline on one connection. *)
Definition session (m : manager) (cs : list command) (rs : list rdata) : Prop := exists m', executes m cs rs m'.
Lemma session_by m cs rs : bool_decide (option_map fst (mdets m cs) = Some rs) = true -> session m cs rs.
Proof.
  intros H. apply bool_decide_eq_true in H. destruct (mdets m cs) as [[rs1 m1]|] eqn:E; [|discriminate].
  injection H as ->. exists m1. apply mdets_ok; auto.
Qed.
End DemoServer3.
Ltac session := apply session_by; vm_compute; reflexivity.

(** ** Echoed options *)
Section DemoServer4.
#[local] Existing Instance demo_setup.
Definition answers (d : db) (c : command) (r : rdata) : Prop := exists d', step 100 d c (Done r d').
Lemma answers_by d c r : bool_decide (match run 100 d (exec_in_db c) with Done r' _ => Some r' | _ => None end = Some r) = true -> answers d c r.
Proof.
  intros H. apply bool_decide_eq_true in H. pose proof (run_runs 100 d (exec_in_db c)) as R.
  destruct (run 100 d (exec_in_db c)) as [r0 d0| |]; try discriminate. injection H as ->. exists d0. exact R.
Qed.
Theorem c05_options :
  (frames [RErr (B "Unsupported option x"); RInt 1] (W "-Unsupported option x&:1&") /\
    reply_bytes (RErr (W "Unsupported option x&:1")) = Some (W "-Unsupported option x&:1&")) /\
  answers demo [Some (B "set"); Some (B "s"); Some (B "v"); Some (W "x&:1")] (RErr (W "Unsupported option x&:1")) /\
  answers demo [Some (B "expire"); Some (B "s"); Some (B "9"); Some (W "x&:1")] (RErr (W "Unsupported option x&:1")) /\
  answers demo [Some (B "lpos"); Some (B "l"); Some (B "b"); Some (W "x&:1"); Some (B "1")] (RErr (W "Unsupported option x&:1")).
Proof.
  split; [split|repeat apply conj; apply answers_by; vm_compute; reflexivity].
  - apply (frs_cons _ _ (W "-Unsupported option x&") (W ":1&")).
    { apply (fr_err (B "Unsupported option x")); apply no_crlfb_spec; reflexivity. }
    apply (frs_cons _ _ (W ":1&") []); [|constructor].
    apply (fr_int (B "1")). apply (fmt_int_denotes 1).
  - reflexivity.
Qed.
End DemoServer4.
