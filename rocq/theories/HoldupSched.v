(** Checking by computation that nothing moves any more, for the concrete executions of C83. *)
From Verif Require Export HoldupProofs Sched.

Section WithParams.
Context {P : Setup}.
(** Everyone has returned, died, loops, or waits. *)
Definition still {A} (c : conf A) : bool :=
  forallb (fun t => match tcode t with
    | Ret _ | Crash | Hang => true
    | Acq p MR _ => wr (lk c p) || pend (lk c p)
    | Acq p MW _ => if ann t then negb (rd (lk c p) =? 0)%nat else wr (lk c p) || pend (lk c p)
    | _ => false end) (ths c).
Lemma still_step {A} T (c c' : conf A) : still c = true -> cstep T c c' -> c' = c.
Proof.
  intros H Hs. unfold still in H. rewrite forallb_forall in H.
  assert (HH : forall i t, ths c !! i = Some t -> match tcode t with
    | Ret _ | Crash | Hang => true
    | Acq p MR _ => wr (lk c p) || pend (lk c p)
    | Acq p MW _ => if ann t then negb (rd (lk c p) =? 0)%nat else wr (lk c p) || pend (lk c p)
    | _ => false end = true) by (intros i t Hi; apply H; apply elem_of_list_In; eapply elem_of_list_lookup_2; eauto).
  clear H. destruct Hs as [d L ts j p d' p' Hj Hp|d L ts j pos k n Hj HL|d L ts j pos k n Hj HL|d L ts j pos k Hj HL|d L ts j pos k n b Hj HL|d L ts j pos k n b Hj HL];
    specialize (HH j _ Hj); cbn in HH; try (rewrite HL in HH; discriminate); try discriminate.
  destruct Hp; try discriminate. f_equal. apply list_insert_id. auto.
Qed.
Lemma still_steps {A} T (c c' : conf A) : still c = true -> rtc (cstep T) c c' -> c' = c.
Proof. intros H R. induction R as [c|c c1 c' Hs _ IH]; auto. assert (c1 = c) as -> by (eapply still_step; eauto). auto. Qed.
Lemma still_rest X T (c : conf (list rdata)) : still c = true -> at_rest X T c.
Proof. intros H c' [Hs (i & _ & Hi)]. rewrite (still_step _ _ _ H Hs) in Hi. congruence. Qed.
(** The keys of commands, none of which is KEYS. *)
Definition no_keys_f (cmds : list command) : bool := forallb (fun cmd => negb (cmd_is "keys" cmd)) cmds.
Lemma uses_args cmds key : no_keys_f cmds = true -> uses cmds key -> key ∈ concat (map key_args cmds).
Proof.
  unfold no_keys_f. rewrite forallb_forall. intros H (cmd & Hc & [Hk|Hk]).
  - apply elem_of_list_In, in_concat. exists (key_args cmd). split; [apply in_map|]; apply elem_of_list_In; auto.
  - apply elem_of_list_In in Hc. specialize (H _ Hc). rewrite Hk in H. discriminate.
Qed.
Lemma touched_args cmds cmd key : no_keys_f cmds = true -> cmd ∈ cmds -> touched cmd key -> key ∈ key_args cmd.
Proof.
  unfold no_keys_f. rewrite forallb_forall. intros H Hc [Hk|Hk]; auto. apply elem_of_list_In in Hc. specialize (H _ Hc). rewrite Hk in H. discriminate.
Qed.
Lemma all_args (f : bytes -> bool) cmds : no_keys_f cmds = true -> forallb f (concat (map key_args cmds)) = true -> forall key, uses cmds key -> f key = true.
Proof. intros H1 H2 key Hu. rewrite forallb_forall in H2. apply H2. apply elem_of_list_In. apply uses_args; auto. Qed.
(** The commands keep above: one that names a key with a lock in [L] names none with a higher lock outside. *)
Definition closed_f (L : N -> bool) (cmds : list command) : bool :=
  forallb (fun cmd => forallb (fun k => forallb (fun k' => negb (L (lockpos k)) || negb (lockpos k <? lockpos k')%N || L (lockpos k')) (key_args cmd)) (key_args cmd)) cmds.
Lemma closed_f_ok L cmds : no_keys_f cmds = true -> closed_f L cmds = true -> forall cmd k k', cmd ∈ cmds -> touched cmd k -> touched cmd k' -> L (lockpos k) = true -> (lockpos k < lockpos k')%N -> L (lockpos k') = true.
Proof.
  intros H1 H2 cmd k k' Hc Hk Hk' HL Hlt. pose proof (touched_args _ _ _ H1 Hc Hk) as E. pose proof (touched_args _ _ _ H1 Hc Hk') as E'. unfold closed_f in H2. rewrite forallb_forall in H2.
  apply elem_of_list_In in Hc. specialize (H2 _ Hc). rewrite forallb_forall in H2. apply elem_of_list_In in E. specialize (H2 _ E). rewrite forallb_forall in H2. apply elem_of_list_In in E'. specialize (H2 _ E').
  rewrite HL in H2. apply N.ltb_lt in Hlt. rewrite Hlt in H2. exact H2.
Qed.
Definition halted_f {A} (t : thread A) : bool := match tcode t with Crash | Hang => true | _ => false end.
Lemma nobody_halted {A} (c : conf A) : forallb (fun t => negb (halted_f t)) (tail (ths c)) = true -> forall j t, ~ 0%nat = j -> ths c !! j = Some t -> ~ halted t.
Proof.
  intros Hf j t Hj Ht Hh. rewrite forallb_forall in Hf. destruct j as [|j]; [congruence|]. destruct (ths c) as [|t0 ts]; [discriminate|]. cbn in *.
  assert (Hin : List.In t ts) by (apply elem_of_list_In; eapply elem_of_list_lookup_2; exact Ht). specialize (Hf t Hin). unfold halted_f in Hf. destruct Hh as [E|E]; rewrite E in Hf; discriminate.
Qed.
Lemma still_answers (T : Z -> Prop) (c : conf (list rdata)) i x : still c = true -> answers c !! i = x -> forall c', rtc (cstep T) c c' -> answers c' !! i = x.
Proof. intros H E c' R. rewrite (still_steps _ _ _ H R). exact E. Qed.
End WithParams.
