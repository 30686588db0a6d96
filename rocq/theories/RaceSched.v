(** Executable executions, for the examples of C82. *)
From Verif Require Export SpecRace StableSched ShardSched.

Section WithParams.
Context {P : Setup}.
(** The state after [n] steps, one of each goroutine in the list. *)
Definition at_time {A} (now : Z) (sched : list nat) (c : conf A) (n : nat) : conf A := fold_left (fun c j => default c (cstep_f now j c)) (take n sched) c.
Fixpoint goes {A} (now : Z) (sched : list nat) (c : conf A) : bool :=
  match sched with [] => true | j :: r => match cstep_f now j c with Some c' => goes now r c' | None => false end end.
Lemma at_time_ok now sched (c : conf (list rdata)) : goes now sched c = true -> execution (eq now) (at_time now sched c) (length sched).
Proof.
  revert c. induction sched as [|j r IH]; intros c H n Hn; [cbn in Hn; lia|]. cbn in H. destruct (cstep_f now j c) as [c'|] eqn:E; [|discriminate]. unfold at_time. destruct n as [|n].
  - cbn. rewrite E. cbn. eapply cstep_f_ok; eauto.
  - cbn [take fold_left]. rewrite E. cbn [default]. apply (IH c' H n). cbn in Hn. lia.
Qed.
Definition sat_time {A} (now : Z) (sched : list nat) (c : sconf A) (n : nat) : sconf A := fold_left (fun c j => default c (mstep_f now j c)) (take n sched) c.
Fixpoint sgoes {A} (now : Z) (sched : list nat) (c : sconf A) : bool :=
  match sched with [] => true | j :: r => match mstep_f now j c with Some c' => sgoes now r c' | None => false end end.
Lemma sat_time_ok now sched (c : sconf (list rdata)) : sgoes now sched c = true -> sexecution (eq now) (sat_time now sched c) (length sched).
Proof.
  revert c. induction sched as [|j r IH]; intros c H n Hn; [cbn in Hn; lia|]. cbn in H. destruct (mstep_f now j c) as [c'|] eqn:E; [|discriminate]. unfold sat_time. destruct n as [|n].
  - cbn. rewrite E. cbn. eapply mstep_f_ok; eauto.
  - cbn [take fold_left]. rewrite E. cbn [default]. apply (IH c' H n). cbn in Hn. lia.
Qed.
Definition inside_b {A} (g : seg) (t : option (sthread A)) : bool := match t with Some t => match sspot t with Some _ => match scode t with DSet key _ _ => bool_decide ((Dict, segpos key) = g) | _ => false end | None => false end | None => false end.
Lemma inside_ok {A} g (t : option (sthread A)) : inside_b g t = true -> exists x, t = Some x /\ in_segment g x /\ ~ only_reads x.
Proof.
  destruct t as [t|]; [|discriminate]. cbn. destruct (sspot t) eqn:E; [|discriminate]. destruct (scode t) eqn:En; try discriminate. intros H%bool_decide_eq_true. subst. exists t. split; auto. split; [split; [congruence|rewrite En; reflexivity]|]. unfold only_reads. rewrite En. tauto.
Qed.
Definition fetches (k : bytes) (t : option (thread (list rdata))) : bool := match t with Some (mkT (DGet key _) _) => bool_decide (key = k) | _ => false end.
Definition mutates (k : bytes) (t : option (thread (list rdata))) : bool := match t with Some (mkT (DMut key _ _) _) => bool_decide (key = k) | _ => false end.
Lemma fetches_ok k t : fetches k t = true -> exists x, t = Some x /\ reads_value k x.
Proof. destruct t as [[[] b]|]; cbn; try discriminate. intros H%bool_decide_eq_true. eexists. split; [reflexivity|]. unfold reads_value. cbn. auto. Qed.
Lemma mutates_ok k t : mutates k t = true -> exists x, t = Some x /\ writes_value k x.
Proof. destruct t as [[[] b]|]; cbn; try discriminate. intros H%bool_decide_eq_true. eexists. split; [reflexivity|]. unfold writes_value. cbn. auto. Qed.
(** The next step writes the counter of keys. *)
Definition counts_b {A} (t : option (sthread A)) : bool := match t with Some (mkS _ _ (Some (Adding (CntStore _ _)))) => true | _ => false end.
Lemma counts_ok {A} (t : option (sthread A)) : counts_b t = true -> exists x, t = Some x /\ exists c p, sspot x = Some (Adding (CntStore c p)).
Proof. destruct t as [[p b [[| |[] | | |]|]]|]; cbn; try discriminate. intros _. eexists. split; [reflexivity|]. cbn. eauto. Qed.
End WithParams.
