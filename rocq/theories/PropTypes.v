(** Wrong types in the commands of several keys: C12. *)
From Verif Require Import DemoRef TypesProofs.

(** * C12  Wrong types, commands of several keys *)
Section C12.
Context {P : Setup}.
(** SUNION, SINTER, SDIFF: one of the keys, whichever, is of another type. *)
Theorem C12_wrong_type_setop op now d n k args out : Inv d -> named n (setop_word op) -> k ∈ args -> wrong_type now d (str k) KSet ->
  step now d (n :: args) out ->
  exists m d', out = Done (RErr m) d' /\ forall t key, now <= t -> view t d' key = view t d key.
Proof. exact (wrong_setop op now d n k args out). Qed.
(** SUNIONSTORE, SINTERSTORE, SDIFFSTORE: the first source is of another type. *)
Theorem C12_wrong_type_store op now d n b k args out : Inv d -> named n (setopstore_word op) -> wrong_type now d (str k) KSet ->
  step now d (n :: b :: k :: args) out ->
  exists m d', out = Done (RErr m) d' /\ forall t key, now <= t -> view t d' key = view t d key.
Proof. exact (wrong_store op now d n b k args out). Qed.
(** SMOVE: the source exists and is not the empty set, the destination is not expired, one of the two is of another type. *)
Theorem C12_wrong_type_smove now d n a b x out : Inv d -> named n "smove" ->
  view now d (str a) <> None -> set_nonempty (str a) now (view now d) -> unexpired now d (str b) ->
  wrong_type now d (str a) KSet \/ wrong_type now d (str b) KSet ->
  step now d [n; a; b; x] out ->
  exists m d', out = Done (RErr m) d' /\ forall t key, now <= t -> view t d' key = view t d key.
Proof. exact (wrong_smove now d n a b x out). Qed.
(** LMOVE: the source exists and is not the empty list; the destination is of another type, or the source is and the destination exists. *)
Theorem C12_wrong_type_lmove now d n a b wa wb out : Inv d -> named n "lmove" ->
  view now d (str a) <> None -> list_nonempty (str a) now (view now d) ->
  wrong_type now d (str a) KList /\ view now d (str b) <> None \/ wrong_type now d (str b) KList ->
  step now d [n; a; b; wa; wb] out ->
  exists m d', out = Done (RErr m) d' /\ forall t key, now <= t -> view t d' key = view t d key.
Proof. exact (wrong_lmove now d n a b wa wb out). Qed.
End C12.
Print Assumptions C12_wrong_type_setop.
Print Assumptions C12_wrong_type_store.
Print Assumptions C12_wrong_type_smove.
Print Assumptions C12_wrong_type_lmove.
Example C12_several_example : Inv demo /\ wrong_type 100 demo (B "s") KSet /\ wrong_type 100 demo (B "s") KList /\
  (exists e, view 100 demo (B "l") = Some (VList (Some (B "a") :: e), None)) /\
  demo_does 100 demo ["sinter"; "u"; "missing"; "s"] err_wrong_kind "u" (view 100 demo (B "u")) /\
  demo_does 100 demo ["sdiffstore"; "u"; "s"; "t"] err_wrong_kind "u" (view 100 demo (B "u")) /\
  demo_does 100 demo ["smove"; "u"; "s"; "y"] err_wrong_kind "u" (view 100 demo (B "u")) /\
  demo_does 100 demo ["lmove"; "l"; "s"; "left"; "right"] err_wrong_kind "l" (view 100 demo (B "l")).
Proof.
  split; [exact demo_inv|]. repeat apply conj; try demo; try (eexists _, _; split; [vm_compute; reflexivity|discriminate]).
  eexists. vm_compute. reflexivity.
Qed.
(** With a missing source, LMOVE and SMOVE do not look at the destination.  MGET answers nil for a key that is not a string. *)
Theorem C12_missing_refuted : wrong_type 100 demo (B "s") KList /\ wrong_type 100 demo (B "s") KSet /\ wrong_type 100 demo (B "l") KStr /\
  view 100 demo (B "missing") = None /\
  demo_does 100 demo ["lmove"; "missing"; "s"; "left"; "left"] (RBulk None) "s" (view 100 demo (B "s")) /\
  demo_does 100 demo ["smove"; "missing"; "s"; "m"] (RInt 0) "s" (view 100 demo (B "s")) /\
  demo_does 100 demo ["mget"; "s"; "l"] (RArr (Some [RBulk (Some (B "hello")); RBulk None])) "l" (view 100 demo (B "l")).
Proof. repeat apply conj; try demo; try (eexists _, _; split; [vm_compute; reflexivity|discriminate]); vm_compute; reflexivity. Qed.
