(** Specification vocabulary for the whole process. *)
From Verif Require Export World SpecPipe SpecNet.

Section WithParams.
Context {P : Setup}.
(** An execution: clients, operating system and goroutines, in any order. *)
Definition happens (T : Z -> Prop) (x y : world) : Prop := outside x y \/ wstep T x y.
(** A goroutine does something: not the idle step of an endless loop. *)
Definition wadvance (T : Z -> Prop) (x y : world) : Prop :=
  wstep T x y /\ (peers y <> peers x \/ map ths (wcores y) <> map ths (wcores x) \/ now_is y <> now_is x).
(** A signal arrives: something happens outside that is not the doing of a client. *)
Definition notified (x y : world) : Prop := outside x y /\ peers y = peers x.
(** The bytes written for a sequence of replies. *)
Inductive replied : list (command * rdata) -> bytes -> Prop :=
| replied_nil : replied [] []
| replied_snoc log bs cmd r f : replied log bs -> reply_bytes r = Some f -> replied (log ++ [(cmd, r)]) (bs ++ f).
(** Of the commands executed for a client, all replies have been written, or all but the one of the command in execution. *)
Definition written_up (p : peer) (log : list (command * rdata)) : Prop :=
  replied log (written p) \/ exists log' cmd r, log = log' ++ [(cmd, r)] /\ hnd (lnk p) = HExec cmd /\ replied log' (written p).
(** An executor is in an endless loop. *)
Definition spins (x : world) : Prop := exists j c t, wcores x !! j = Some c /\ t ∈ ths c /\ tcode t = Hang.
End WithParams.
