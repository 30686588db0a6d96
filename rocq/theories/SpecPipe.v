(** Specification vocabulary for one connection. *)
From Verif Require Export Pipe SpecWire.

(** The commands handed to the executor so far, in order. *)
Definition handed (x : link) : list command :=
  map fst (log x) ++ match hnd x with HExec cmd => [cmd] | _ => [] end.
(** An execution: the client and the goroutines, in any order. *)
Definition goes (x y : link) : Prop := client x y \/ lstep x y.
(** Nothing more happens unless the client does something. *)
Definition rests (x : link) : Prop := dead x = false /\ forall y, ~ lstep x y.
