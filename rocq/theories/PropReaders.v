(** Clients that only read (C80). *)
From Verif Require Import ReadersProofs Sched.

(** * C80  Reading commands do not disturb each other *)
Section C80.
Context {P : Setup} (T : Z -> Prop) (d : db) (cs : list (list command)) (c : conf (list rdata)).
(** While no deadline passes, clients whose commands only read leave the database as it is, never wait for a lock, and never ask for one exclusively. *)
Theorem C80_undisturbed : none_expires T d -> Forall (Forall reading) cs -> rtc (cstep T) (clients d cs) c ->
  cdb c = d /\ forall i t, ths c !! i = Some t -> ~ waits c t /\ ~ disturbs t.
Proof. exact (fun HT HF R => readers_free T d HT cs c HF R). Qed.
(** Each reply is one that the command gives when it is executed alone. *)
Theorem C80_replies i cmds t rs : none_expires T d -> Forall (Forall reading) cs -> rtc (cstep T) (clients d cs) c ->
  cs !! i = Some cmds -> ths c !! i = Some t -> tcode t = Ret rs -> Forall2 (fun cmd r => runs T d (exec_in_db cmd) (Done r d)) cmds rs.
Proof. exact (fun HT HF R => readers_replies T d HT cs c HF R i cmds t rs). Qed.
End C80.
Print Assumptions C80_undisturbed.
Print Assumptions C80_replies.

#[local] Existing Instance demo_setup.
Local Open Scope string_scope.
(** Three clients read; at some point all three hold the lock of the key s in the shared mode. *)
Definition library : list (list (list string)) := [[["get"; "s"]; ["keys"; "*"]]; [["strlen"; "s"]]; [["type"; "s"]; ["nosuch"]]].
Example C80_example : none_expires (eq 20) demo /\ Forall (Forall reading) (map (map C) library) /\
  (exists c, rtc (cstep (eq 20)) (race demo library) c /\ rd (lk c (lockpos (B "s"))) = 3%nat) /\
  may_end 20 demo [[["get"; "s"]; ["llen"; "l"]]; [["strlen"; "s"]]; [["type"; "s"]; ["nosuch"]]] [[bulk "hello"; RInt 4]; [RInt 5]; [RStr (B "string"); unknown_cmd (B "nosuch")]] "s" (estr "hello" None).
Proof.
  split; [|split; [|split]].
  - assert (H : bool_decide (map_Forall (fun _ t => 20 <= t) (exps demo)) = true) by (vm_compute; reflexivity). apply bool_decide_eq_true in H. intros key t now Hk <-. exact (H key t Hk).
  - repeat first [apply List.Forall_cons|apply List.Forall_nil]; first [right; reflexivity|left; apply elem_of_list_In; vm_compute; tauto].
  - assert (R := play_ok 20 [(0, 2); (1, 2); (2, 2)]%nat (race demo library)). eexists. split; [exact R|]. vm_compute. reflexivity.
  - apply (play_ends [(0, 2); (1, 2); (2, 100); (0, 100); (1, 100)]%nat). vm_compute. reflexivity.
Qed.
