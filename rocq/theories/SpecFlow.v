(** Specification vocabulary for replies on their way out. *)
From Verif Require Export Flow SpecWorld.

Section WithParams.
Context {P : Setup}.
Definition flows (T : Z -> Prop) (x y : flow) : Prop := around x y \/ fgo T x y.
(** A goroutine does something. *)
Definition fadvance (T : Z -> Prop) (x y : flow) : Prop :=
  fgo T x y /\ (peers y.1 <> peers x.1 \/ map ths (wcores y.1) <> map ths (wcores x.1) \/ now_is y.1 <> now_is x.1).
End WithParams.
