(** Properties of all commands at once: C08-C14, C47, C52, C59. *)
From Verif Require Import GenericFacts Demo.

(** * C08  Command names *)
Section C08.
Context {P : Setup}.
(** Two commands that differ only in the ASCII letter case of the name have the same behaviours. *)
Theorem C08_case_insensitive n1 n2 args now d out :
  same_upto_case (str n1) (str n2) -> (exists s a, In (s, a) arity_table /\ named n1 s) ->
  step now d (n1 :: args) out <-> step now d (n2 :: args) out.
Proof. exact (case_insensitive n1 n2 args now d out). Qed.
(** A name that is not in the table is answered with an error; nothing happens. *)
Theorem C08_unknown_harmless n args now d out :
  (forall s a, In (s, a) arity_table -> ~ named n s) ->
  step now d (n :: args) out <-> out = Done (RErr (B "unknown command '" ++ str n ++ B "'")) d.
Proof. exact (unknown_harmless n args now d out). Qed.
(** What [named], used in every other statement, means: the client wrote the name in some mixture of letter cases. *)
Theorem C08_spelling n s : small (B s) -> named n s <-> spelling (str n) (B s).
Proof. exact (named_spelling n s). Qed.
(** The names of the table are all in lower case. *)
Theorem C08_names_small s a : In (s, a) arity_table -> small (B s).
Proof. exact (names_small s a). Qed.
End C08.
Print Assumptions C08_spelling.
Print Assumptions C08_names_small.
Print Assumptions C08_case_insensitive.
Print Assumptions C08_unknown_harmless.
Example C08_example :
  same_upto_case (B "HSet") (B "hsEt") /\ named (Some (B "HSet")) "hset" /\
  demo_does 100 demo ["HSet"; "h"; "c"; "3"] (RInt 1) "h"
    (Some (VHash {[B "a" := Some (B "1"); B "b" := Some (B "x"); B "c" := Some (B "3")]}, None)) /\
  demo_does 100 demo ["flushall"] (RErr (B "unknown command 'flushall'")) "s" (Some (VStr (Some (B "hello")), None)).
Proof.
  repeat split; try demo. unfold same_upto_case.
  repeat (first [apply Forall2_nil_2 | apply Forall2_cons_2;
    [first [left; reflexivity | right; left; split; [split; vm_compute; congruence|reflexivity] | right; right; split; [split; vm_compute; congruence|reflexivity]]|]]).
Qed.
(** Two spellings of KEYS, one with the Kelvin sign; a command in capitals; the last letter of the alphabet. *)
Example C08_spelling_example :
  spelling (B "KeYs") (B "keys") /\ spelling [ascii_of_N 226; ascii_of_N 132; ascii_of_N 170; "E"; "y"; "S"]%char (B "keys") /\
  demo_does 100 demo ["eXISTS"; "s"] (RInt 1) "s" (Some (VStr (Some (B "hello")), None)) /\
  named (Some (B "ZQJX")) "zqjx".
Proof.
  split; [|split; [|split; [demo|reflexivity]]].
  - repeat (first [apply SpNil | apply SpChar; [first [left; reflexivity | right; split; [split; vm_compute; congruence|reflexivity]]|]]).
  - apply SpKelvin. repeat (first [apply SpNil | apply SpChar; [first [left; reflexivity | right; split; [split; vm_compute; congruence|reflexivity]]|]]).
Qed.

(** * C09  Wrong argument counts *)
Section C09.
Context {P : Setup}.
(** Every command but LPOP and RPOP refuses a wrong number of words, without touching the database. *)
Theorem C09_arity s a n args now d out :
  In (s, a) arity_table -> s <> "lpop"%string -> s <> "rpop"%string -> named n s ->
  admits a (S (length args)) = false ->
  step now d (n :: args) out <-> out = Done err_args d.
Proof. exact (arity_rejected s a n args now d out). Qed.
End C09.
Print Assumptions C09_arity.
Example C09_example : admits (Between 3 4) 5 = false /\
  demo_does 100 demo ["expire"; "old"; "1"; "nx"; "xx"] err_args "old" None.
Proof. split; [reflexivity|demo]. Qed.
(** LPOP with too many words is executed. *)
Theorem C09_lpop_refuted : admits (Between 2 3) 4 = false /\
  demo_does 100 demo ["lpop"; "l"; "1"; "surplus"] (RBulk (Some (B "a"))) "l"
    (Some (VList [Some (B "b"); Some (B "c"); Some (B "b")], None)).
Proof. split; [reflexivity|demo]. Qed.
Theorem C09_rpop_refuted : admits (Between 2 3) 4 = false /\
  demo_does 100 demo ["rpop"; "l"; "1"; "surplus"] (RBulk (Some (B "b"))) "l"
    (Some (VList [Some (B "a"); Some (B "b"); Some (B "c")], None)).
Proof. split; [reflexivity|demo]. Qed.

(** * C10  Commands only affect the keys they name *)
Section C10.
Context {P : Setup}.
Theorem C10_frame now d cmd r d' t k :
  Inv d -> step now d cmd (Done r d') -> k ∉ key_args cmd -> now <= t -> view t d' k = view t d k.
Proof. exact (step_frame now d cmd r d' t k). Qed.
End C10.
Print Assumptions C10_frame.
Example C10_example : Inv demo /\ B "u" ∉ key_args (C ["sinterstore"; "r"; "t"; "t"]) /\
  demo_does 100 demo ["sinterstore"; "r"; "t"; "t"] (RInt 3) "u" (Some (VSet {[B "y"; B "w"]}, None)).
Proof. split; [exact demo_inv|]. split; [|demo]. apply (bool_decide_unpack _). vm_compute. exact I. Qed.

(** * C11  Read commands change nothing *)
Section C11.
Context {P : Setup}.
Theorem C11_reads now d n args r d' t k :
  Inv d -> to_lower (str n) ∈ map B read_names -> step now d (n :: args) (Done r d') -> now <= t ->
  view t d' k = view t d k.
Proof. exact (step_reads now d n args r d' t k). Qed.
End C11.
Print Assumptions C11_reads.
Example C11_example : Inv demo /\ to_lower (B "SUnion") ∈ map B read_names /\
  demo_does 100 demo ["SUnion"; "u"; "u"] (RArr (Some [RBulk (Some (B "y")); RBulk (Some (B "w"))])) "u"
    (Some (VSet {[B "y"; B "w"]}, None)).
Proof. split; [exact demo_inv|]. split; [|demo]. apply (bool_decide_unpack _). vm_compute. exact I. Qed.

(** * C12  Wrong types *)
Section C12.
Context {P : Setup}.
(** The database is left exactly as it was. *)
Theorem C12_wrong_type s kd now d n k args out :
  In (s, kd) typed_commands -> named n s -> wrong_type now d (str k) kd ->
  step now d (n :: k :: args) out -> exists m, out = Done (RErr m) d.
Proof. exact (exec_wrong_type s kd now d n k args out). Qed.
(** SET may crash if its last option lacks an argument. *)
Theorem C12_wrong_type_set now d n k v args out :
  named n "set" -> wrong_type now d (str k) KStr -> step now d (n :: k :: v :: args) out ->
  (exists d', out = Crashes d') \/ (exists m, out = Done (RErr m) d).
Proof. exact (wrong_type_set now d n k v args out). Qed.
(** SRANDMEMBER with any count but 0. *)
Theorem C12_wrong_type_srandmember now d n k args out :
  named n "srandmember" -> wrong_type now d (str k) KSet ->
  (forall a, args = [a] -> atoi (str a) <> Some 0) ->
  step now d (n :: k :: args) out -> exists m, out = Done (RErr m) d.
Proof. exact (wrong_type_srandmember now d n k args out). Qed.
End C12.
Print Assumptions C12_wrong_type.
Print Assumptions C12_wrong_type_set.
Print Assumptions C12_wrong_type_srandmember.
Example C12_example : wrong_type 100 demo (B "l") KHash /\ wrong_type 100 demo (B "h") KStr /\ wrong_type 100 demo (B "s") KSet /\
  demo_does 100 demo ["hset"; "l"; "a"; "1"] err_wrong_kind "l"
    (Some (VList [Some (B "a"); Some (B "b"); Some (B "c"); Some (B "b")], None)) /\
  demo_does 100 demo ["set"; "h"; "v"; "ex"; "5"] (RErr (B "The value stored at key is not a string")) "h"
    (Some (VHash {[B "a" := Some (B "1"); B "b" := Some (B "x")]}, None)) /\
  demo_does 100 demo ["srandmember"; "s"; "2"] err_wrong_kind "s" (Some (VStr (Some (B "hello")), None)).
Proof.
  repeat apply conj; try demo; eexists _, _; split; try (vm_compute; reflexivity); discriminate.
Qed.
(** LMOVE from a key that is not a list creates an empty destination. *)
Theorem C12_lmove_refuted : wrong_type 100 demo (B "s") KList /\ view 100 demo (B "new") = None /\
  demo_does 100 demo ["lmove"; "s"; "new"; "left"; "left"] err_wrong_kind "new" (Some (VList [], None)).
Proof.
  split; [|split; [vm_compute; reflexivity|demo]]. eexists _, _; split; [vm_compute; reflexivity|discriminate].
Qed.
(** HSETNX, SRANDMEMBER with count 0 and SMOVE to an expired destination answer no error. *)
Theorem C12_silent_refuted :
  wrong_type 100 demo (B "s") KHash /\ wrong_type 100 demo (B "s") KSet /\
  demo_does 100 demo ["hsetnx"; "s"; "f"; "v"] (RInt 0) "s" (Some (VStr (Some (B "hello")), None)) /\
  demo_does 100 demo ["srandmember"; "s"; "0"] (RBulk None) "s" (Some (VStr (Some (B "hello")), None)) /\
  demo_does 100 demo ["smove"; "s"; "old"; "m"] (RInt 0) "s" (Some (VStr (Some (B "hello")), None)).
Proof. repeat apply conj; try demo; eexists _, _; split; try (vm_compute; reflexivity); discriminate. Qed.
(** SUNIONSTORE empties the destination although a later operand has the wrong type. *)
Theorem C12_store_refuted : wrong_type 100 demo (B "s") KSet /\
  demo_does 100 demo ["sunionstore"; "u"; "t"; "s"] err_wrong_kind "u" (Some (VSet ∅, None)).
Proof. split; [|demo]. eexists _, _; split; [vm_compute; reflexivity|discriminate]. Qed.
(** SET with a dangling EX crashes. *)
Theorem C12_set_refuted : wrong_type 100 demo (B "h") KStr /\ dies 100 demo ["set"; "h"; "v"; "ex"].
Proof. split; [|demo]. eexists _, _; split; [vm_compute; reflexivity|discriminate]. Qed.

(** * C13  Deadlines belong to existing keys *)
Section C13.
Context {P : Setup}.
Theorem C13_deadline_has_value d k : reachable d -> is_Some (exps d !! k) -> is_Some (dict d !! k).
Proof. exact (reachable_deadline d k). Qed.
(** The general form: the invariant used as hypothesis in all theorems holds in every reachable state. *)
Theorem C13_invariant d : reachable d -> Inv d.
Proof. exact (reachable_inv d). Qed.
End C13.
Print Assumptions C13_deadline_has_value.
Print Assumptions C13_invariant.
(** The example database is reachable, and has deadlines. *)
Lemma after_reachable (P := demo_setup) now l : forall d d', reachable d -> after now d l = Some d' -> reachable d'.
Proof.
  induction l as [|c l IH]; intros d d' Hr H; cbn [after] in H; [injection H as <-; auto|].
  pose proof (run_runs now d (exec_in_db (C c))) as R.
  destruct (run now d (exec_in_db (C c))) as [r d1| |]; try discriminate.
  eapply IH; [|exact H]. econstructor; [exact Hr|]. eapply runs_mono; [|exact R]. auto.
Qed.
Example C13_example (P := demo_setup) : reachable demo /\ exps demo !! B "n" = Some 200 /\ exps demo !! B "old" = Some 50.
Proof.
  split; [|split; vm_compute; reflexivity].
  unfold demo. match goal with |- reachable (default _ ?x) => destruct x eqn:E end; [|constructor].
  eapply after_reachable; [constructor|exact E].
Qed.

(** * C14  Expired keys are invisible *)
Section C14.
Context {P : Setup}.
(** A command on an expired key behaves as on the database without the key; the exception is a command that
    answers an error for a missing key, which may answer something else, changing nothing either way. *)
Theorem C14_expired_invisible now d s n k args t : In s one_key_commands -> named n s ->
  exps d !! str k = Some t -> t < now -> like_missing now d (str k) (exec_in_db (n :: k :: args)).
Proof. exact (expired_like_missing now d s n k args t). Qed.
(** These are all the commands with one key argument but PERSIST. *)
Theorem C14_commands s a : In (s, a) arity_table -> keykind_of (B s) = KFirst ->
  s = "persist"%string \/ In s one_key_commands.
Proof. exact (one_key_complete s a). Qed.
End C14.
Print Assumptions C14_expired_invisible.
Print Assumptions C14_commands.
Example C14_example : exps demo !! B "old" = Some 50 /\
  demo_does 100 demo ["append"; "old"; "new"] (RInt 3) "old" (Some (VStr (Some (B "new")), None)) /\
  demo_does 50 demo ["append"; "old"; "new"] (RInt 7) "old" (Some (VStr (Some (B "gonenew")), Some 50)).
Proof. split; [vm_compute; reflexivity|]. split; demo. Qed.
(** Where an expired key is not like a missing one. *)
Theorem C14_mget_refuted :
  demo_does 100 demo ["mget"; "s"; "old"] (RArr (Some [RBulk (Some (B "hello"))])) "old" None /\
  demo_does 100 demo ["mget"; "s"; "missing"] (RArr (Some [RBulk (Some (B "hello")); RBulk None])) "missing" None.
Proof. split; demo. Qed.
Theorem C14_sinter_refuted :
  demo_does 100 demo ["sinter"; "u"; "old"] (RArr (Some [RBulk (Some (B "y")); RBulk (Some (B "w"))])) "old" None /\
  demo_does 100 demo ["sinter"; "u"; "missing"] (RArr None) "missing" None /\
  dies 100 demo ["sunion"; "old"] /\
  demo_does 100 demo ["sunion"; "missing"] (RArr None) "missing" None.
Proof. repeat split; demo. Qed.
Theorem C14_persist_refuted :
  demo_does 100 demo ["persist"; "old"] (RInt 0) "old" None /\
  demo_does 100 demo ["persist"; "missing"] (RInt 1) "missing" None.
Proof. split; demo. Qed.
(** The exception in [C14_expired_invisible] is needed. *)
Theorem C14_argument_error_refuted :
  demo_does 100 demo ["expire"; "old"; "5"; "bad"] (RInt 0) "old" None /\
  demo_does 100 demo ["expire"; "missing"; "5"; "bad"] (RErr (B "Unsupported option bad")) "missing" None.
Proof. split; demo. Qed.

(** * C52  Lock discipline *)
Section C52.
Context {P : Setup}.
(** Every command starts and ends without locks, acquires locks in increasing order of position, all in one
    mode and none after a release, writes a key's value or deadline only under the key's exclusive lock and
    reads its value only under its lock (SETNX and KEYS apart; see [wf]). *)
Theorem C52_lock_discipline cmd :
  Wf.wf (touched cmd) (cmd_is "setnx" cmd) (cmd_is "keys" cmd) Idle Idle (exec_in_db cmd).
Proof. exact (exec_wf cmd). Qed.
End C52.
Print Assumptions C52_lock_discipline.

(** * C59  Deadlines come only from the commands meant to set them *)
Section C59.
Context {P : Setup}.
Theorem C59_no_new_deadline now d cmd r d' k v t : Inv d ->
  (forall n args s, cmd = n :: args -> In s deadline_names -> ~ named n s) ->
  step now d cmd (Done r d') -> view now d' k = Some (v, Some t) -> exists v0, view now d k = Some (v0, Some t).
Proof. exact (step_deadline now d cmd r d' k v t). Qed.
End C59.
Print Assumptions C59_no_new_deadline.
Example C59_example : Inv demo /\ demo_does 100 demo ["incr"; "n"] (RInt 42) "n" (Some (VStr (Some (B "42")), Some 200)) /\
  view 100 demo (B "n") = Some (VStr (Some (B "41")), Some 200).
Proof. split; [exact demo_inv|]. split; [demo|vm_compute; reflexivity]. Qed.
