(** The whole process with commands that never end: whose commands wait for them. *)
From Verif Require Export SpecWorld SpecHoldup SpecPanic.

Section WithParams.
Context {P : Setup}.
(** The command of client [i] is in execution on database [j]. *)
Definition performs (x : world) (j i : nat) (cmd : command) : Prop :=
  exists p, peers x !! i = Some p /\ hnd (lnk p) = HExec cmd /\ runs_on p = Some j.
(** It is in an endless loop. *)
Definition looping (x : world) (j i : nat) (cmd : command) : Prop :=
  performs x j i cmd /\ exists c t, wcores x !! j = Some c /\ ths c !! i = Some t /\ tcode t = Hang.
(** An LINSERT in an endless loop. *)
Definition endless (x : world) (j : nat) (cmd : command) : Prop := may_loop cmd /\ exists i, looping x j i cmd.
(** A command in execution on database [j] that is held up by an endless one through locks from [p] upwards: it is that command;
    or it shares one of these locks with another command in execution there that is held up through the locks above this one. *)
Inductive held_up (x : world) (j : nat) : N -> command -> Prop :=
| held_itself p cmd : endless x j cmd -> held_up x j p cmd
| held_behind p i cmd key i' cmd' key' : performs x j i cmd -> performs x j i' cmd' -> touched cmd key -> touched cmd' key' ->
    lockpos key = lockpos key' -> (p <= lockpos key)%N -> held_up x j (N.succ (lockpos key)) cmd' -> held_up x j p cmd.
End WithParams.
