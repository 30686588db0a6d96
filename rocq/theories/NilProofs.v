(** The encoder panics exactly on values with a nil interface inside. *)
From Verif Require Export SpecNil FrameProofs.

Lemma enc_none d : enc d = None <-> nil_in d.
Proof.
  induction d as [s|s|n|v| |l IH|] using rdata_ind'; try (split; intros H; [try destruct v; discriminate H|inversion H; fail]).
  - split; intros H; [|inversion H as [|l' d Hd Hn]; subst].
    + assert (G : exists d, d ∈ l /\ nil_in d); [|destruct G as (d & G1 & G2); eapply ni_arr; eauto].
      cbn [enc] in H. induction IH as [|x r Hx HF IHr]; [discriminate H|]. destruct (enc x) as [a|] eqn:E; [|exists x; split; [left|apply Hx; auto]].
      destruct IHr as (d & G1 & G2); [|exists d; split; [right; auto|auto]].
      destruct ((fix encs (l : list rdata) : option bytes :=
        match l with [] => Some [] | x :: r => match enc x, encs r with Some a, Some b => Some (a ++ b) | _, _ => None end end) r) eqn:Er; [discriminate H|reflexivity].
    + cbn [enc]. induction IH as [|x r Hx HF IHr]; [inversion Hd|]. apply elem_of_cons in Hd as [->|Hd].
      * rewrite (proj2 Hx Hn). reflexivity.
      * destruct (enc x); [|reflexivity]. specialize (IHr ltac:(eapply ni_arr; eauto) Hd).
        destruct ((fix encs (l : list rdata) : option bytes :=
        match l with [] => Some [] | x :: r => match enc x, encs r with Some a, Some b => Some (a ++ b) | _, _ => None end end) r) eqn:Er; [discriminate IHr|reflexivity].
  - split; intros _; [constructor|reflexivity].
Qed.
