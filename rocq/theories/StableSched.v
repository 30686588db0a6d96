(** Executable schedules in which one goroutine does not take certain steps, for the example of C81. *)
From Verif Require Export SpecStable Sched.

Section WithParams.
Context {P : Setup}.
Definition rel_b {A} (t : thread A) : bool := match tcode t with Rel _ _ _ => true | _ => false end.
Definition but_f {A} (now : Z) (i j : nat) (c : conf A) : option (conf A) :=
  if (j =? i)%nat && match ths c !! i with Some t => rel_b t | None => true end then None else cstep_f now j c.
Fixpoint but_go {A} (now : Z) (i j n : nat) (c : conf A) : conf A :=
  match n with O => c | S n => match but_f now i j c with Some c' => but_go now i j n c' | None => c end end.
Definition but_play {A} (now : Z) (i : nat) (sched : list (nat * nat)) (c : conf A) : conf A := fold_left (fun c '(j, n) => but_go now i j n c) sched c.

Lemma cstep_f_ne {A} now i j (c c' : conf A) : j <> i -> cstep_f now j c = Some c' -> ths c' !! i = ths c !! i.
Proof.
  intros Hn. destruct c as [d L ts]. unfold cstep_f. destruct (ts !! j) as [[p b]|] eqn:E; [|discriminate]. cbn [mbind option_bind].
  assert (Hp : ('(d', p') ← prim_f now d p; Some (mkC d' L (<[j := mkT p' false]> ts))) = Some c' -> ths c' !! i = ts !! i).
  { intros H. destruct (prim_f now d p) as [[d' p']|] eqn:F; [|discriminate]. injection H as <-. cbn. apply list_lookup_insert_ne; auto. }
  destruct p; try destruct m; destruct b; try discriminate; intros H; auto.
  all: match goal with E : _ !! _ = Some (mkT (_ ?p _ _) _) |- context [mkC _ ?L _] => destruct (L p) as [[|n] [] []] eqn:F end; try discriminate; injection H as <-; cbn; apply list_lookup_insert_ne; auto.
Qed.
Lemma but_f_ok {A} now i j (c c' : conf A) : but_f now i j c = Some c' -> but_for (eq now) i releases c c'.
Proof.
  unfold but_f. destruct (j =? i)%nat eqn:E; cbn [andb]; intros H.
  - destruct (ths c !! i) as [t|] eqn:Et; [|discriminate]. destruct (rel_b t) eqn:Er; [discriminate|]. split; [eapply cstep_f_ok; eauto|]. right. intros t' Ht'. rewrite Et in Ht'. injection Ht' as <-.
    unfold rel_b in Er. unfold releases. destruct (tcode t); try discriminate; tauto.
  - split; [eapply cstep_f_ok; eauto|]. left. apply Nat.eqb_neq in E. eapply cstep_f_ne; eauto.
Qed.
Lemma but_go_ok {A} now i j n (c : conf A) : rtc (but_for (eq now) i releases) c (but_go now i j n c).
Proof.
  revert c. induction n as [|n IH]; intros c; cbn; [reflexivity|]. destruct (but_f now i j c) as [c'|] eqn:E; [|reflexivity]. eapply rtc_l; [eapply but_f_ok; exact E|apply IH].
Qed.
Lemma but_play_ok {A} now i sched (c : conf A) : rtc (but_for (eq now) i releases) c (but_play now i sched c).
Proof. unfold but_play. revert c. induction sched as [|[j n] l IH]; intros c; cbn; [reflexivity|]. etransitivity; [apply but_go_ok|apply IH]. Qed.
End WithParams.
