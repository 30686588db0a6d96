(** Specification vocabulary for C81: what happens to a value while a goroutine works on it. *)
From Verif Require Export Conc WfCmds.

(** The next step of the goroutine releases a lock. *)
Definition releases {A} (t : thread A) : Prop := match tcode t with Rel _ _ _ => True | _ => False end.
(** A step of anybody that is not a step of goroutine [i] of the kind [Q]. *)
Definition but_for {P : Setup} {A} (T : Z -> Prop) (i : nat) (Q : thread A -> Prop) (c c' : conf A) : Prop :=
  cstep T c c' /\ (ths c' !! i = ths c !! i \/ forall t, ths c !! i = Some t -> ~ Q t).
(** Client [i] does not use SETNX (which looks for the key without a lock, but not at its value). *)
Definition no_setnx (cs : list (list command)) (i : nat) : Prop := forall cmds cmd, cs !! i = Some cmds -> cmd ∈ cmds -> cmd_is "setnx" cmd = false.
