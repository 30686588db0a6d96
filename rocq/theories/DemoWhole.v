(** Schedules with a moving clock, for the examples of C76. *)
From Verif Require Export OneProofs WorldSched.

Section WithParams.
Context {P : Setup}.
Definition idle_b (x : world) : bool := forallb (fun p => match runs_on p with None => true | Some _ => false end) (peers x).
Lemma idle_ok x : idle_b x = true -> ~ executing x.
Proof.
  intros H (i & p & Hi & Hr). apply Hr. pose proof (proj1 (List.forallb_forall _ _) H p ltac:(apply elem_of_list_In; eapply elem_of_list_lookup_2; eauto)) as E. cbn in E. destruct (runs_on p); [discriminate|reflexivity].
Qed.
Fixpoint tplay (l : list (Z * list wact)) (x : world) : option world :=
  match l with [] => Some x | (t, acts) :: r => y ← wplay t acts x; if idle_b y then tplay r y else None end.
Lemma tplay_ok l x y t0 : (length (peers x) <= 1)%nat -> ~ executing x -> tplay l x = Some y -> exists t, rtc ticks (t0, x) (t, y).
Proof.
  revert x t0. induction l as [|[t acts] l IH]; intros x t0 L E; cbn; [intros [= <-]; exists t0; apply rtc_refl|].
  destruct (wplay t acts x) as [x1|] eqn:E1; [|discriminate]. cbn. destruct (idle_b x1) eqn:E2; [|discriminate]. intros H. pose proof (wplay_ok _ _ _ _ E1) as R.
  assert (L1 : (length (peers x1) <= 1)%nat) by (rewrite (peers_length _ _ _ R); auto). destruct (IH x1 t L1 (idle_ok _ E2) H) as [t1 R1]. exists t1.
  etransitivity; [apply (idle_ticks t0 t x); auto; apply alone_one; auto|]. etransitivity; [apply alone_ticks; eauto|exact R1].
Qed.
Lemma tplays {A} l x (f : world -> A) a t0 : (length (peers x) <= 1)%nat -> ~ executing x -> f <$> tplay l x = Some a -> exists t y, rtc ticks (t0, x) (t, y) /\ f y = a.
Proof. intros L E. destruct (tplay l x) as [y|] eqn:Ey; [|discriminate]. intros [= <-]. destruct (tplay_ok l x y t0 L E Ey) as [t R]. eauto. Qed.
End WithParams.
