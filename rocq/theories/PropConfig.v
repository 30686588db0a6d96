(** Configuration, startup, log levels: C58, C60, C61. *)
From Verif Require Import ConfigProofs StartupProofs.

(** * C58  The configuration file *)
Section C58.
Context (valid_ip : bytes -> bool).
(** Every file has lines, every line has words, and these are what strings.Fields returns. *)
Theorem C58_lines s : exists ls, lines s ls.
Proof. exact (lines_total s). Qed.
Theorem C58_words s ws : fields s = ws <-> words_of s ws.
Proof. exact (words_spec s ws). Qed.
Theorem C58_white p : p ∈ spaces <-> exists n, n ∈ white_space /\ p = utf8 n.
Proof. exact (white_ok p). Qed.
(** If no line is faulty and the last line is not blank: after at most one round for each line the loader returns;
    each field has the argument of the last directive for it. *)
Theorem C58_loads s ls wss c fuel : lines s ls -> Forall2 words_of ls wss -> Forall (good_line valid_ip) wss -> list.last wss <> Some [] -> (length ls <= fuel)%nat ->
  exists c', load valid_ip fuel s c = Some (CfgOk c') /\ configured wss c c'.
Proof. exact (load_good valid_ip s ls wss c fuel). Qed.
(** If no line is faulty and the last line is blank (as when the file ends with a newline) it never returns. *)
Theorem C58_blank_end s ls wss c : lines s ls -> Forall2 words_of ls wss -> Forall (good_line valid_ip) wss -> list.last wss = Some [] ->
  forall fuel, load valid_ip fuel s c = None.
Proof. intros H1 H2 H3 H4 fuel. exact (load_blank_end valid_ip s ls wss c fuel H1 H2 H3 H4). Qed.
(** The first faulty line decides: a directive without argument is a panic, a bad argument an error. *)
Theorem C58_faulty s ls wss c pre ws post : lines s ls -> Forall2 words_of ls wss -> wss = pre ++ ws :: post -> Forall (good_line valid_ip) pre ->
  forall fuel, (length pre < fuel)%nat ->
  (bare_line ws -> load valid_ip fuel s c = Some CfgPanic) /\ (wrong_line valid_ip ws -> load valid_ip fuel s c = Some CfgErr).
Proof. intros H1 H2 H3 H4 fuel H5. exact (load_bad valid_ip s ls wss c fuel pre ws post H1 H2 H3 H4 H5). Qed.
(** There are no other lines. *)
Theorem C58_all_lines ws : good_line valid_ip ws \/ bare_line ws \/ wrong_line valid_ip ws.
Proof. exact (line_cases valid_ip ws). Qed.
End C58.
Print Assumptions C58_lines.
Print Assumptions C58_words.
Print Assumptions C58_white.
Print Assumptions C58_loads.
Print Assumptions C58_blank_end.
Print Assumptions C58_faulty.
Print Assumptions C58_all_lines.


(** Files written as lines. *)
Fixpoint F (l : list string) : bytes := match l with [] => [] | [x] => B x | x :: r => B x ++ LF :: F r end.
Definition sample : list string := ["host 127.0.0.1"; ""; "Port 6399"; "logdir	/tmp  x"; "LOGLEVEL Debug"; "  unknown"; "segnum 7"; "segnum 1024"]%string.
Definition sample_words : list (list bytes) :=
  [[B "host"; B "127.0.0.1"]; []; [B "Port"; B "6399"]; [B "logdir"; B "/tmp"; B "x"]; [B "LOGLEVEL"; B "Debug"]; [B "unknown"]; [B "segnum"; B "7"]; [B "segnum"; B "1024"]].
Definition any_ip (s : bytes) : bool := negb (beq s []).
Lemma good_words_ok : Forall (good_line any_ip) sample_words.
Proof.
  repeat (apply List.Forall_cons || apply List.Forall_nil); cbn [good_line]; auto; intros Hn.
  5: { exfalso. revert Hn. apply (bool_decide_eq_true (_ ∉ _)). vm_compute. reflexivity. }
  all: eexists _, _; split; [reflexivity|]; split; [intros _; vm_compute; reflexivity|].
  all: intros Hi; first [apply (bool_decide_eq_true (is_Some _)); vm_compute; reflexivity|exfalso; revert Hi; apply (bool_decide_eq_true (_ ∉ _)); vm_compute; reflexivity].
Qed.
Ltac show_lines := repeat first [apply (lines_more (B _)); [apply (bool_decide_eq_true (_ ∉ _)); vm_compute; reflexivity|] | apply lines_one; apply (bool_decide_eq_true (_ ∉ _)); vm_compute; reflexivity].
Lemma sample_lines : lines (F sample) (map B sample).
Proof. cbn [F sample map]. show_lines. Qed.
Lemma sample_fields : Forall2 words_of (map B sample) sample_words.
Proof. repeat (apply List.Forall2_cons || apply List.Forall2_nil); apply words_spec; vm_compute; reflexivity. Qed.
Example C58_example : lines (F sample) (map B sample) /\ Forall2 words_of (map B sample) sample_words /\ Forall (good_line any_ip) sample_words /\
  load any_ip 8 (F sample) default_config = Some (CfgOk (mkConf (B "127.0.0.1") 6399 (B "/tmp") (B "debug") 1024 16)).
Proof. split; [exact sample_lines|]. split; [exact sample_fields|]. split; [exact good_words_ok|]. vm_compute. reflexivity. Qed.
(** The same file with a newline at its end. *)
Theorem C58_newline_at_end_refuted : forall fuel, load any_ip fuel (F (sample ++ [""%string])) default_config = None.
Proof.
  apply (C58_blank_end any_ip _ (map B sample ++ [[]]) (sample_words ++ [[]])).
  - cbn [F sample map app]. show_lines.
  - apply Forall2_app; [exact sample_fields|]. repeat constructor.
  - apply Forall_app. split; [exact good_words_ok|]. repeat constructor.
  - reflexivity.
Qed.
(** Panic, error; the number of segments is not checked. *)
Theorem C58_bare_refuted : load any_ip 2 (F ["logdir"; "port 1"]%string) default_config = Some CfgPanic.
Proof. vm_compute. reflexivity. Qed.
Example C58_wrong_example : load any_ip 2 (F ["dbnum x"; "port 1"]%string) default_config = Some CfgErr.
Proof. vm_compute. reflexivity. Qed.

(** * C60  Log levels *)
(** With a level of the table, exactly the messages from that level on are written; any other name means info. *)
Theorem C60_levels i name : severities !! i = Some name -> forall l, writes l (level_of name) = true <-> Z.of_nat i <= l.
Proof. exact (levels_ok i name). Qed.
Theorem C60_unknown name : name ∉ severities -> forall l, writes l (level_of name) = true <-> 1 <= l.
Proof. exact (levels_unknown name). Qed.
Print Assumptions C60_levels.
Print Assumptions C60_unknown.
Example C60_example : writes 2 (level_of (B "warning")) = true /\ writes 1 (level_of (B "warning")) = false /\ writes 0 (level_of (B "verbose")) = false.
Proof. vm_compute. auto. Qed.

(** * C61  The lock table *)
(** With a positive number of segments (that fits): twice as many locks as segments, and every key has its lock, the one of the model. *)
Theorem C61_locks (P : Setup) : Zpos segnum < max_seg_size -> exists n, new_memdb (Zpos segnum) = Some (Zpos segnum, n) /\ n = 2 * Zpos segnum /\
  forall key, lock_index n key = Some (Z.of_N (lockpos key)) /\ 0 <= Z.of_N (lockpos key) < n.
Proof. exact (locks_ok P). Qed.
Print Assumptions C61_locks.
(** The configured number is not checked: 0 makes every use of a lock panic, a negative one makes startup panic. *)
Theorem C61_zero_refuted : load any_ip 1 (B "segnum 0") default_config = Some (CfgOk (mkConf (B "127.0.0.1") 6379 (B "./") (B "info") 0 16)) /\
  new_locks 0 = Some 0 /\ forall key, lock_index 0 key = None.
Proof. split; [vm_compute; reflexivity|]. split; [vm_compute; reflexivity|]. reflexivity. Qed.
Theorem C61_negative_refuted : load any_ip 1 (B "segnum -1") default_config = Some (CfgOk (mkConf (B "127.0.0.1") 6379 (B "./") (B "info") (-1) 16)) /\ new_memdb (-1) = None.
Proof. split; vm_compute; reflexivity. Qed.
Example C61_example : new_memdb 100 = Some (100, 200) /\ lock_index 200 (B "a") <> lock_index 200 (B "b").
Proof. split; [vm_compute; reflexivity|]. vm_compute. discriminate. Qed.
