(** Specification vocabulary for keys that are only read. *)
From Verif Require Export SpecMemory.

Section WithParams.
Context {P : Setup}.
(** The command has keys, all of them in [ks]. *)
Definition about (ks : list bytes) (cmd : command) : Prop := (exists k, touched cmd k) /\ forall k, touched cmd k -> k ∈ ks.
(** The two databases hold the same under the keys in [ks]. *)
Definition same_on (ks : list bytes) (d d' : db) : Prop := forall k, k ∈ ks -> dict d' !! k = dict d !! k /\ exps d' !! k = exps d !! k.
(** No deadline of a key in [ks] passes while the clock shows values of [T]. *)
Definition lasting (T : Z -> Prop) (ks : list bytes) (d : db) : Prop := forall k t now, k ∈ ks -> exps d !! k = Some t -> T now -> now <= t.
End WithParams.
