(** The start of the process and its log: C72, C73. *)
From Verif Require Import MainStart LogProofs.

(** * C72  How the process starts *)
Section C72.
Context (sys : system).
(** Every command line with every answer of the system: either there is one outcome, reached after finitely many rounds of reading the
    configuration file, or reading it never ends. *)
Theorem C72_cases args : (exists o fuel, forall g, (fuel <= g)%nat -> main sys g args = Some o) \/ (forall fuel, main sys fuel args = None).
Proof. exact (start_cases sys args). Qed.
Theorem C72_config args : exists f, configures sys args f.
Proof. exact (configures_total sys args). Qed.
(** It comes to serve with the configuration [c] exactly if flags and file make [c], the log opens, the address is free, and the
    numbers of databases and segments are possible. *)
Theorem C72_serves args c : (exists fuel, main sys fuel args = Some (Serves c)) <->
  configures sys args (Configured c) /\ logs sys c /\ listens sys (host c) (port c) = true /\ room c.
Proof. exact (start_serves sys args c). Qed.
Theorem C72_exits args n : (exists fuel, main sys fuel args = Some (Exits n)) <->
  configures sys args (Stops n) \/ n = 1 /\ exists c, configures sys args (Configured c) /\ (~ logs sys c \/ listens sys (host c) (port c) = false).
Proof. exact (start_exits sys args n). Qed.
Theorem C72_panics args : (exists fuel, main sys fuel args = Some Panics) <->
  configures sys args ConfigPanics \/ exists c, configures sys args (Configured c) /\ logs sys c /\ listens sys (host c) (port c) = true /\ ~ room c.
Proof. exact (start_panics sys args). Qed.
Theorem C72_loops args : (forall fuel, main sys fuel args = None) <-> configures sys args ConfigLoops.
Proof. exact (start_loops sys args). Qed.
(** Each setting is the one of the last directive for it in the file, else of the last flag for it, else the default. *)
Theorem C72_settings args c fuel : main sys fuel args = Some (Serves c) -> exists kvs wss,
  flags args kvs AllWell /\ (default [] (setting "config" kvs) = [] -> wss = []) /\
  host c = default (default (B "127.0.0.1") (setting "host" kvs)) (last_arg "host" wss) /\
  logdir c = default (default (B "./") (setting "logdir" kvs)) (last_arg "logdir" wss) /\
  loglevel c = default (default (B "info") (setting "loglevel" kvs)) (to_lower <$> last_arg "loglevel" wss) /\
  (forall name dflt get, (name, dflt, get) ∈ [("port"%string, 6379, port); ("segnum"%string, 100, segs); ("dbnum"%string, 16, dbnum)] ->
    match last_arg name wss, setting name kvs with Some a, _ => atoi a = Some (get c) | None, Some v => int_word v (get c) | None, None => get c = dflt end).
Proof. exact (start_settings sys args c fuel). Qed.
(** There is a database to begin with (as C67 to C69 suppose). *)
Theorem C72_databases args c fuel : main sys fuel args = Some (Serves c) -> 1 <= dbnum c.
Proof. exact (serves_some sys fuel args c). Qed.
End C72.
(** Integers on the command line are Go's literals; those written the usual way mean what they mean in the file. *)
Theorem C72_int s z : flag_int s = Some z <-> int_word s z.
Proof. exact (flag_int_spec s z). Qed.
Theorem C72_int_usual s n : canonical s -> denotes s n -> fits64 n -> int_word s n.
Proof. exact (canonical_word s n). Qed.
Print Assumptions C72_cases.
Print Assumptions C72_config.
Print Assumptions C72_serves.
Print Assumptions C72_exits.
Print Assumptions C72_panics.
Print Assumptions C72_loops.
Print Assumptions C72_settings.
Print Assumptions C72_databases.
Print Assumptions C72_int.
Print Assumptions C72_int_usual.

(** A system with three files, one of them a directory. *)
Definition box : system := mkSys (fun s => negb (beq s []))
  (fun f => if beq f (B "a.conf") then Some (B "host ::1" ++ [LF; LF] ++ B "Port 010", false)
            else if beq f (B "nl.conf") then Some (B "port 7000" ++ [LF], false)
            else if beq f (B "dir") then Some ([], true) else None)
  (fun d => negb (beq d (B "/new"))) (fun d => beq d (B "/new")) (fun d => negb (beq d (B "/etc"))) (fun h p => (0 <=? p) && (p <=? 65535)).
Definition args (l : list string) : list bytes := map B l.
(** The file's port wins over the flag's; what follows the first word that is no flag is not looked at. *)
Example C72_example : main box 9 (args ["-port"; "0x1_000"; "--config=a.conf"; "-dbnum=4"; "x"; "-bad"]) = Some (Serves (mkConf (B "::1") 10 (B "./") (B "info") 100 4)).
Proof. vm_compute. reflexivity. Qed.
Example C72_example_flags : flags (args ["-port"; "0x1_000"; "--config=a.conf"; "-dbnum=4"; "x"; "-bad"]) [(B "port", B "0x1_000"); (B "config", B "a.conf"); (B "dbnum", B "4")] AllWell.
Proof.
  assert (Hd : forall t c r, t = c :: r -> c <> "-"%char -> c <> "="%char -> dashed (B "-" ++ t) t) by (intros t c r -> H1 H2; split; [auto|eauto]).
  assert (Hn : forall n : bytes, bool_decide ("="%char ∉ n) = true -> "="%char ∉ n) by (intros n H; exact (bool_decide_eq_true_1 _ H)).
  apply (fl_next _ (B "port") (B "0x1_000")); [eapply Hd; [reflexivity|discriminate..]|apply Hn; vm_compute; reflexivity|right; unfold takes_int; rewrite !elem_of_cons; auto|
    intros _; exists 4096; apply flag_int_spec; vm_compute; reflexivity|].
  apply (fl_same _ (B "config") (B "a.conf")); [split; [right; reflexivity|eexists _, _; split; [reflexivity|split; discriminate]]|apply Hn; vm_compute; reflexivity|left; rewrite !elem_of_cons; auto| |].
  { unfold fine_value, takes_int. rewrite !elem_of_cons, elem_of_nil. intros [H|[H|[H|[]]]]; discriminate. }
  apply (fl_same _ (B "dbnum") (B "4")); [eapply Hd; [reflexivity|discriminate..]|apply Hn; vm_compute; reflexivity|right; unfold takes_int; rewrite !elem_of_cons; auto|
    intros _; exists 4; apply flag_int_spec; vm_compute; reflexivity|].
  apply fl_stop. right. right. right. eexists _, _. split; [reflexivity|discriminate].
Qed.
Example C72_example_exits : main box 9 (args ["-h"]) = Some (Exits 0) /\ main box 9 (args ["-port"; "12a"]) = Some (Exits 2) /\ main box 9 (args ["-port"]) = Some (Exits 2) /\
  main box 9 (args ["-host="]) = Some (Exits 1) /\ main box 9 (args ["-config"; "none"]) = Some (Exits 1) /\ main box 9 (args ["-logdir=/etc"]) = Some (Exits 1) /\ main box 9 (args ["-port=70000"]) = Some (Exits 1).
Proof. vm_compute. auto 10. Qed.
(** A file that cannot be read is silently taken for an empty one. *)
Theorem C72_read_error_refuted : main box 9 (args ["-config"; "dir"]) = Some (Serves default_config).
Proof. vm_compute. reflexivity. Qed.
(** The same number means one thing on the command line and another in the file. *)
Theorem C72_octal_refuted : main box 9 (args ["-port"; "010"]) = Some (Serves (mkConf (B "127.0.0.1") 8 (B "./") (B "info") 100 16)) /\
  main box 9 (args ["-config"; "a.conf"]) = Some (Serves (mkConf (B "::1") 10 (B "./") (B "info") 100 16)).
Proof. vm_compute. auto. Qed.
(** A level given in capitals counts in the file only. *)
Theorem C72_level_refuted : level_of (B "DEBUG") = 1 /\ level_of (to_lower (B "DEBUG")) = 0.
Proof. vm_compute. auto. Qed.
(** Impossible numbers are not refused but panic, after the address has been bound; some negative numbers of segments even pass. *)
Theorem C72_numbers_refuted : main box 9 (args ["-dbnum=0"]) = Some Panics /\ main box 9 (args ["-dbnum=-1"]) = Some Panics /\ main box 9 (args ["-segnum=-1"]) = Some Panics /\
  main box 9 (args ["-segnum=-9223372036854775708"]) = Some (Serves (mkConf (B "127.0.0.1") 6379 (B "./") (B "info") (-9223372036854775708) 16)).
Proof. vm_compute. auto. Qed.
(** A file that ends with a newline is read for ever. *)
Theorem C72_newline_refuted : forall fuel, main box fuel (args ["-config"; "nl.conf"]) = None.
Proof.
  intros fuel. unfold main. replace (parse_flags (args ["-config"; "nl.conf"]) default_opts) with (FlagOk (mkOpts (B "nl.conf") default_config)) by (vm_compute; reflexivity).
  assert (E : init_config box fuel (mkOpts (B "nl.conf") default_config) = load_any (ip_ok box) false fuel (B "port 7000" ++ [LF]) default_config) by reflexivity.
  rewrite E. replace (load_any (ip_ok box) false fuel (B "port 7000" ++ [LF]) default_config) with (@None cfg_out); [reflexivity|]. symmetry.
  apply (load_blank_end (ip_ok box) _ [B "port 7000"; []] [[B "port"; B "7000"]; []]).
  - apply (lines_more (B "port 7000")); [apply (bool_decide_eq_true (_ ∉ _)); vm_compute; reflexivity|]. apply lines_one. apply not_elem_of_nil.
  - repeat constructor. apply words_spec. vm_compute. reflexivity.
  - repeat constructor. cbn [good_line]. intros _. eexists _, _. split; [reflexivity|]. split; [vm_compute; reflexivity|]. intros _. exists 7000. vm_compute. reflexivity.
  - reflexivity.
Qed.

(** * C73  The log *)
Section C73.
Context (conf : Z) (old : bytes) (css : list (list lcall)).
(** At every moment the file begins with the lines of calls that were made, each with the level, the position and the text of one call, those
    of a goroutine in its order and none twice; what follows is left over from what the file contained before. *)
Theorem C73_lines s : Forall (Forall (fun c => 0 <= level c <= 4)) css -> rtc (logstep conf) (log_start old css) s -> exists order ls,
  content (lfile s) = concat ls ++ drop (length (concat ls)) old /\ Forall2 (fun x l => line_for x.2 l) order ls /\
  forall i cs, css !! i = Some cs -> exists rest, kept conf cs = mine i order ++ rest.
Proof. intros H. exact (log_lines conf old css H s). Qed.
(** Calls come to an end, without a deadlock, and then all are written that the level admits. *)
Theorem C73_all s : Forall (Forall (fun c => 0 <= level c <= 4)) css -> rtc (logstep conf) (log_start old css) s -> (forall s', ~ logstep conf s s') -> exists order ls,
  content (lfile s) = concat ls ++ drop (length (concat ls)) old /\ Forall2 (fun x l => line_for x.2 l) order ls /\
  forall i cs, css !! i = Some cs -> mine i order = kept conf cs.
Proof. intros H. exact (log_done conf old css H s). Qed.
Theorem C73_ends (f : nat -> logger) : ~ forall n, logstep conf (f n) (f (S n)).
Proof. exact (log_ends conf f). Qed.
End C73.
Print Assumptions C73_lines.
Print Assumptions C73_all.
Print Assumptions C73_ends.
(** Two goroutines, one of them with a message below the level; the second waits while the first is inside. *)
Definition say (l : Z) (p t : string) : lcall := mkCall l (B p) (B t).
Example C73_example : exists s, rtc (logstep 1) (log_start [] [[say 1 "a.go:1" "hello"]; [say 0 "b.go:2" "no"; say 4 "b.go:3" "bad"]]) s /\
  content (lfile s) = B "[info][a.go:1] hello" ++ [LF] ++ B "[error][b.go:3] bad" ++ [LF] /\ forall s', ~ logstep 1 s s'.
Proof.
  eexists. split; [|split].
  - eapply rtc_l; [eapply (L_skip _ _ _ _ _ 1); reflexivity|]. eapply rtc_l; [eapply (L_call _ _ _ _ _ 1); reflexivity|].
    eapply rtc_l; [eapply (L_call _ _ _ _ _ 0); reflexivity|]. eapply rtc_l; [eapply (L_lock _ _ _ _ 0); reflexivity|].
    eapply rtc_l; [eapply (L_prefix _ _ _ _ _ 0); reflexivity|]. eapply rtc_l; [eapply (L_print _ _ _ _ _ 0 _ _ (B " ")); reflexivity|]. eapply rtc_l; [eapply (L_unlock _ _ _ _ _ 0); reflexivity|].
    eapply rtc_l; [eapply (L_lock _ _ _ _ 1); reflexivity|].
    eapply rtc_l; [eapply (L_prefix _ _ _ _ _ 1); reflexivity|]. eapply rtc_l; [eapply (L_print _ _ _ _ _ 1 _ _ (B " ")); reflexivity|]. eapply rtc_l; [eapply (L_unlock _ _ _ _ _ 1); reflexivity|]. apply rtc_refl.
  - vm_compute. reflexivity.
  - cbn. intros s' H. inversion H; subst; match goal with E : _ !! ?i = Some _ |- _ => destruct i as [|[|?]]; discriminate end.
Qed.
(** A restart writes over the old log from its beginning. *)
Theorem C73_restart_refuted : exists s, rtc (logstep 1) (log_start (B "[info][a.go:1] all of the old log" ++ [LF]) [[say 3 "c.go:9" "x"]]) s /\ (forall s', ~ logstep 1 s s') /\
  content (lfile s) = B "[panic][c.go:9] x" ++ [LF] ++ B " of the old log" ++ [LF].
Proof.
  eexists. split; [|split].
  - eapply rtc_l; [eapply (L_call _ _ _ _ _ 0); reflexivity|]. eapply rtc_l; [eapply (L_lock _ _ _ _ 0); reflexivity|].
    eapply rtc_l; [eapply (L_prefix _ _ _ _ _ 0); reflexivity|]. eapply rtc_l; [eapply (L_print _ _ _ _ _ 0 _ _ (B " ")); reflexivity|]. eapply rtc_l; [eapply (L_unlock _ _ _ _ _ 0); reflexivity|]. apply rtc_refl.
  - cbn. intros s' H. inversion H; subst; match goal with E : _ !! ?i = Some _ |- _ => destruct i as [|?]; discriminate end.
  - vm_compute. reflexivity.
Qed.
