(** Goroutines that stand still: whom they hold up. *)
From Verif Require Export Conc WfCmds.

Section WithParams.
Context {P : Setup}.

(** A key that one of the commands names (or looks at, if it is KEYS). *)
Definition uses (cmds : list command) (key : bytes) : Prop := exists cmd, cmd ∈ cmds /\ touched cmd key.
(** A goroutine that does not stand still, that is, is none of [X], advances. *)
Definition others (X : nat -> Prop) (T : Z -> Prop) (c c' : conf (list rdata)) : Prop :=
  cstep T c c' /\ exists i, ~ X i /\ ths c' !! i <> ths c !! i.
(** None of them can advance any more. *)
Definition at_rest (X : nat -> Prop) (T : Z -> Prop) (c : conf (list rdata)) : Prop := forall c', ~ others X T c c'.
(** The goroutine has died, or is in an endless loop. *)
Definition halted {A} (t : thread A) : Prop := tcode t = Crash \/ tcode t = Hang.
(** The client has got all its replies. *)
Definition answered (c : conf (list rdata)) (i : nat) (cmds : list command) : Prop :=
  exists t rs, ths c !! i = Some t /\ tcode t = Ret rs /\ length rs = length cmds.
End WithParams.
