(** Specification vocabulary for what the databases keep in memory. *)
From Verif Require Export SpecStall SpecReaders SpecParts.

Section WithParams.
Context {P : Setup}.
(** Something is stored under [k], a value or a deadline, that was not stored there before. *)
Definition stores (d d' : db) (k : bytes) : Prop :=
  (exists v, dict d' !! k = Some v /\ dict d !! k <> Some v) \/ (exists t, exps d' !! k = Some t /\ exps d !! k <> Some t).
(** What is stored under [k], deadline included, is not the same. *)
Definition differs (d d' : db) (k : bytes) : Prop := dict d' !! k <> dict d !! k \/ exps d' !! k <> exps d !! k.
(** The command of client [i] has been received by the time of [y], and had not been answered at the time of [x]. *)
Definition since (x y : world) (i : nat) (cmd : command) : Prop :=
  exists p q, peers x !! i = Some p /\ peers y !! i = Some q /\ cmd ∈ drop (length (log (lnk p))) (handed (lnk q)).
End WithParams.
