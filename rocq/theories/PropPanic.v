(** Which commands can panic, and which can loop for ever: C70. *)
From Verif Require Import SafeCmds PanicExact Sched Demo.

(** * C70  Commands that cannot panic *)
Section C70.
Context {P : Setup}.
(** A client that sends only [panic_free] commands never panics, in any state, whatever the other clients do meanwhile. *)
Theorem C70_no_panic (T : Z -> Prop) d cs c i cmds t : rtc (cstep T) (clients d cs) c -> cs !! i = Some cmds ->
  (forall cmd, cmd ∈ cmds -> panic_free cmd) -> ths c !! i = Some t -> tcode t <> Crash.
Proof. exact (clients_no_panic T d cs c i cmds t). Qed.
(** A client that does not use LINSERT is never in an endless loop. *)
Theorem C70_no_loop (T : Z -> Prop) d cs c i cmds t : rtc (cstep T) (clients d cs) c -> cs !! i = Some cmds ->
  (forall cmd, cmd ∈ cmds -> ~ may_loop cmd) -> ths c !! i = Some t -> tcode t <> Hang.
Proof. exact (clients_no_loop T d cs c i cmds t). Qed.
(** The same for one command alone: it answers. *)
Theorem C70_answers now d cmd out : step now d cmd out -> panic_free cmd -> ~ may_loop cmd -> exists r d', out = Done r d'.
Proof. exact (step_answers now d cmd out). Qed.
(** Exactly when a command, alone, panics; exactly when it loops for ever. *)
Theorem C70_exact now d cmd out : Inv d -> step now d cmd out -> (panics now d cmd <-> exists d', out = Crashes d').
Proof. exact (panics_exact now d cmd out). Qed.
Theorem C70_exact_loop now d cmd out : Inv d -> step now d cmd out -> (loops_forever now d cmd <-> exists d', out = Hangs d').
Proof. exact (loops_exact now d cmd out). Qed.
End C70.
Print Assumptions C70_exact.
Print Assumptions C70_exact_loop.
Print Assumptions C70_no_panic.
Print Assumptions C70_no_loop.
Print Assumptions C70_answers.

#[local] Existing Instance demo_setup.
Local Open Scope string_scope.
(** Every name in [panicking] belongs there: the command panics on some arguments, in a state reached by commands. *)
Theorem C70_panicking s : In s panicking -> exists before args, then_dies 100 demo before (s :: args).
Proof.
  intros H. cbn [In panicking] in H. repeat destruct H as [<-|H]; [..|destruct H].
  - exists [], ["[a-"]. apply run_then_dies. vm_compute. reflexivity.
  - exists [], ["s"; "v"; "ex"]. apply run_then_dies. vm_compute. reflexivity.
  - exists [], ["s"; "9223372036854775807"; "x"]. apply run_then_dies. vm_compute. reflexivity.
  - exists [["hincrby"; "new"; "f"; "x"]], ["new"]. apply run_then_dies. vm_compute. reflexivity.
  - exists [], ["l"; "-9223372036854775808"]. apply run_then_dies. vm_compute. reflexivity.
  - exists [], ["l"; "-9223372036854775808"; "X"]. apply run_then_dies. vm_compute. reflexivity.
  - exists [["lmove"; "s"; "new"; "left"; "left"]], ["new"; "l"; "left"; "left"]. apply run_then_dies. vm_compute. reflexivity.
  - exists [["lmove"; "s"; "new"; "left"; "left"]], ["new"; "-1"; "0"]. apply run_then_dies. vm_compute. reflexivity.
  - exists [["srem"; "u"; "y"; "w"]], ["u"]. apply run_then_dies. vm_compute. reflexivity.
  - exists [], ["old"]. apply run_then_dies. vm_compute. reflexivity.
  - exists [], ["old"]. apply run_then_dies. vm_compute. reflexivity.
  - exists [], ["old"]. apply run_then_dies. vm_compute. reflexivity.
Qed.
Print Assumptions C70_panicking.
(** LINSERT loops when it inserts, after the pivot, an element equal to it. *)
Theorem C70_linsert_loops : exists args, hangs 100 demo ("linsert" :: args).
Proof. exists ["l"; "after"; "b"; "b"]. apply run_hangs. vm_compute. reflexivity. Qed.
Print Assumptions C70_linsert_loops.
(** A client with such commands of the kinds that may panic otherwise, beside one that panics with SET. *)
Definition careful : list (list string) := [["set"; "s"; "v"; "EX"; "100"]; ["set"; "s"; "ex"]; ["lindex"; "l"; "-1"]; ["setrange"; "s"; "5"; "y"]; ["smove"; "t"; "u"; "x"]].
Example C70_example : (forall cmd, cmd ∈ map C careful -> panic_free cmd) /\
  exists c, rtc (cstep (eq 100)) (race demo [careful; [["set"; "s"; "v"; "ex"]]]) c /\
    tcode <$> (ths c !! 0%nat) = Some (Ret [ok; ok; bulk "b"; RInt 6; RInt 1]) /\ tcode <$> (ths c !! 1%nat) = Some Crash.
Proof.
  split.
  - intros cmd H. unfold careful in H. cbn [map] in H. repeat (apply elem_of_cons in H as [->|H]); [..|inversion H].
    + right. left. split; [vm_compute; reflexivity|]. intros args a E _. apply (f_equal (fun l => List.last l None)) in E. rewrite last_last in E. vm_compute in E. rewrite <- E. split; vm_compute; discriminate.
    + right. left. split; [vm_compute; reflexivity|]. intros args a E Hl. exfalso. apply (f_equal length) in E. rewrite app_length in E. cbn in E. lia.
    + right. right. left. split; [left; vm_compute; reflexivity|]. intros i E. vm_compute in E. injection E as <-. vm_compute. discriminate.
    + right. right. right. split; [vm_compute; reflexivity|]. intros a o E1 E2. vm_compute in E1. injection E1 as <-. vm_compute in E2. injection E2 as <-. vm_compute. discriminate.
    + left. intros s Hs Hn. cbn [In panicking] in Hs. vm_compute in Hn. repeat destruct Hs as [<-|Hs]; [discriminate Hn..|destruct Hs].
  - eexists. split; [apply (play_ok 100 [(0, 20); (1, 100); (0, 300)]%nat)|]. split; vm_compute; reflexivity.
Qed.
(** Both sides of the boundary: the junk after EX is accepted, so the bare PX is reached; after PX it is not.  The two last keys have lapsed: naming one twice avoids the panic. *)
Example C70_exact_example : Inv demo /\
  panics 100 demo (C ["set"; "s"; "v"; "get"; "ex"; "junk"; "PX"]) /\ dies 100 demo ["set"; "s"; "v"; "get"; "ex"; "junk"; "PX"] /\
  ~ panics 100 demo (C ["set"; "s"; "v"; "get"; "px"; "junk"; "PX"]) /\
  panics 100 demo (C ["sunion"; "old"]) /\ dies 100 demo ["sunion"; "old"] /\ ~ panics 100 demo (C ["sunion"; "old"; "old"]) /\
  loops_forever 100 demo (C ["linsert"; "l"; "AFTER"; "b"; "b"]) /\ hangs 100 demo ["linsert"; "l"; "AFTER"; "b"; "b"].
Proof.
  assert (Hp : panics 100 demo (C ["set"; "s"; "v"; "get"; "ex"; "junk"; "PX"])).
  { left. split; [vm_compute; reflexivity|]. eexists _, _, _. split; [reflexivity|]. apply dg_flag; [vm_compute; auto|]. apply dg_ex; [vm_compute; reflexivity|]. apply dg_last. right. vm_compute. reflexivity. }
  assert (Hu : lapsed 100 demo (B "old")) by (exists 50; split; vm_compute; reflexivity).
  split; [exact demo_inv|]. split; [exact Hp|]. split; [apply run_dies; vm_compute; reflexivity|]. split; [|split; [|split; [apply run_dies; vm_compute; reflexivity|split; [|split; [|apply run_hangs; vm_compute; reflexivity]]]]].
  - pose proof (run_runs 100 demo (exec_in_db (C ["set"; "s"; "v"; "get"; "px"; "junk"; "PX"]))) as R. intros F. apply (C70_exact _ _ _ _ demo_inv R) in F as [d' F]. vm_compute in F. discriminate.
  - do 8 right. left. split; [right; right; vm_compute; reflexivity|]. split; [discriminate|]. split; [|constructor; [exact Hu|constructor]]. cbn. constructor; [intros F; inversion F|constructor].
  - pose proof (run_runs 100 demo (exec_in_db (C ["sunion"; "old"; "old"]))) as R. intros F. apply (C70_exact _ _ _ _ demo_inv R) in F as [d' F]. vm_compute in F. discriminate.
  - eexists _, _, _, _, _, _, _, (Some (B "b")). split; [reflexivity|]. split; [vm_compute; reflexivity|]. split; [vm_compute; reflexivity|]. split; [vm_compute; reflexivity|]. split; [right; left|]. split; reflexivity.
Qed.
