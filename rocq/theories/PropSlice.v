(** Byte slices and the values they stand for: C66. *)
From Verif Require Import SliceProofs.

(** * C66  A reply is the value the key had *)
(** The slices stored under the keys show, after every history, the values computed by the operations on plain byte strings. *)
Theorem C66_contents l x : slice_run no_slices l x -> contents x = vrun (map fst l) ∅.
Proof. exact (slice_contents l x). Qed.
(** The slice handed out as a reply shows the value at that moment, also when it is looked at later (the reply is written after the lock has been released),
    as long as no SETRANGE has started inside a value since. *)
Theorem C66_reply l1 o r l2 z : slice_run no_slices (l1 ++ (o, r) :: l2) z ->
  (forall la p lb, l2 = la ++ p :: lb -> ~ writes_inside p.1 (vrun (map fst (l1 ++ (o, r) :: la)) ∅)) ->
  shows (mem z) <$> r = vreply o (vrun (map fst l1) ∅).
Proof. exact (slice_reply l1 o r l2 z). Qed.
(** After every history every operation can be carried out, if the key of a GETRANGE or RENAME is there. *)
Theorem C66_possible l x o : slice_run no_slices l x -> sensible o (contents x) -> exists r y, sstep x o r y.
Proof. exact (slice_possible l x o). Qed.
Print Assumptions C66_contents.
Print Assumptions C66_possible.
Print Assumptions C66_reply.
(** A history with an append in place (over the CR LF read with the argument) and one into a new array. *)
Example C66_example : exists x s,
  slice_run no_slices [(DoStore (B "k") (B "hello"), None); (DoGet (B "k"), Some s); (DoAppend (B "k") (B "!!"), None);
    (DoAppend (B "k") (B "world"), None); (DoSetRange (B "k") 14 (B "x"), None)] x /\
  shows (mem x) s = B "hello" /\ contents x !! B "k" = Some (B "hello!!world" ++ [ascii_of_N 0; ascii_of_N 0] ++ B "x").
Proof.
  eexists _, (mkSlice 0 0 5). split; [|split].
  - eapply SR_cons; [apply (S_store _ _ _ _ 0 [ascii_of_N 13; ascii_of_N 10]); reflexivity|].
    eapply SR_cons; [apply S_get|].
    eapply SR_cons; [eapply S_append; [reflexivity|]; eapply A_in_place; [reflexivity|vm_compute; lia]|].
    eapply SR_cons; [eapply S_append; [reflexivity|]; eapply (A_new _ _ _ _ 1 [ascii_of_N 9]); [reflexivity|vm_compute; lia|reflexivity]|].
    eapply SR_cons; [eapply S_setrange_out; [reflexivity|vm_compute; lia|eapply (A_new _ _ _ _ 2 []); [reflexivity|vm_compute; lia|reflexivity]|
      eapply (A_new _ _ _ _ 3 []); [reflexivity|vm_compute; lia|reflexivity]]|]. apply SR_nil.
  - vm_compute. reflexivity.
  - vm_compute. reflexivity.
Qed.
(** Violation: GET hands out the slice; before its reply is written a SETRANGE of another connection writes into the same array.
    The reply XYllo is a value the key never had. *)
Theorem C66_torn_refuted : exists x s,
  slice_run no_slices [(DoStore (B "k") (B "hello"), None); (DoGet (B "k"), Some s); (DoSetRange (B "k") 0 (B "XY"), None)] x /\
  shows (mem x) s = B "XYllo" /\ vreply (DoGet (B "k")) (vrun [DoStore (B "k") (B "hello")] ∅) = Some (B "hello") /\
  contents x !! B "k" = Some (B "XY").
Proof.
  eexists _, (mkSlice 0 0 5). split.
  - eapply SR_cons; [apply (S_store _ _ _ _ 0 [ascii_of_N 13; ascii_of_N 10]); reflexivity|].
    eapply SR_cons; [apply S_get|].
    eapply SR_cons; [eapply S_setrange_in; [reflexivity|vm_compute; lia|]; eapply A_in_place; [reflexivity|vm_compute; lia]|]. apply SR_nil.
  - vm_compute. auto.
Qed.
Print Assumptions C66_torn_refuted.
