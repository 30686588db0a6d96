(** Executable executions with replies on their way out, for the examples. *)
From Verif Require Export FlowProofs WorldSched.

(** [Does a]: the process or a client, as in WorldSched.v; [Takes i n]: [n] bytes for connection [i] are handed over; [Breaks i]: connection [i] breaks. *)
Inductive flact := Does (a : wact) | Takes (i n : nat) | Breaks (i : nat).
Definition actor (a : wact) : option nat :=
  match a with
  | Connect i | Client i _ | Accept i | Serve i | Go i _ | Cmd (Sel i) | Cmd (Beg i) | Cmd (Run i _) | Cmd (Rep i) | Die i => Some i
  | Signal | Exit => None end.
Section WithParams.
Context {P : Setup}.
Definition flact_f (now : Z) (a : flact) (x : flow) : option flow :=
  match a with
  | Does a => if match actor a with Some i => writing x.2 i | None => false end then None
              else y ← wact_f now a x.1; match now_is y with Running => Some (y, write_all x.2 x.1 y) | _ => None end
  | Takes i n => match now_is x.1, x.2 !! i with
      | Running, Some (mkOut w a false) => match take n w with [] => None | b :: bs => Some (x.1, <[i := mkOut (drop n w) (a ++ b :: bs) false]> x.2) end
      | _, _ => None end
  | Breaks i => match now_is x.1, x.2 !! i with Running, Some (mkOut w a false) => Some (x.1, <[i := mkOut [] a true]> x.2) | _, _ => None end
  end.
Lemma write_same os x y : (forall i, written_at y i = written_at x i) -> write_all os x y = os.
Proof.
  intros H. unfold write_all. apply list_eq. intros i. rewrite list_lookup_imap. destruct (os !! i) as [o|]; auto. cbn. rewrite H, drop_all, write_nil. auto.
Qed.
Lemma written_ins sl cs ps sg f sl' cs' sg' f' i p p' : ps !! i = Some p -> written p' = written p -> forall j, written_at (mkW sl' cs' (<[i := p']> ps) sg' f') j = written_at (mkW sl cs ps sg f) j.
Proof.
  intros Hi E j. unfold written_at. cbn. destruct (decide (i = j)) as [->|Hn]; [rewrite list_lookup_insert by (eapply lookup_lt_Some; eauto); rewrite Hi; auto|rewrite list_lookup_insert_ne by auto; auto].
Qed.
Lemma lift T x y os : happens T x y -> (forall i, writing os i = true -> peers y !! i = peers x !! i) -> now_is y = Running -> flows T (x, os) (y, write_all os x y).
Proof.
  intros [H|H] Hs Hr.
  - replace (write_all os x y) with os; [left; constructor; auto|]. symmetry. apply write_same. destruct H; auto; eapply written_ins; eauto.
  - right. constructor; auto.
    assert (Hu : forall sl cs ps sg f i p, ps !! i = Some p -> writing os i = false -> peers (unhandled os (mkW sl cs ps sg f)) !! i = Some p) by (intros; apply un_look; auto).
    assert (Hc : forall (ps : list peer) (i : nat) p p', ps !! i = Some p -> <[i := p']> ps !! i = ps !! i -> p' = p).
    { intros ps i p p' Hi E. rewrite list_lookup_insert in E by (eapply lookup_lt_Some; eauto). congruence. }
    destruct H; cbn [peers now_is] in *; try discriminate.
    + destruct (writing os i) eqn:E; [pose proof (Hc _ _ _ _ H (Hs _ E)); discriminate|]. rewrite un_ins by auto. eapply W_accept; [apply Hu; eauto|].
      intros j q Hq. cbn in Hq. rewrite list_lookup_imap in Hq. destruct (ps !! j) as [q0|] eqn:Eq; [|discriminate]. cbn in Hq. injection Hq as <-. specialize (H0 _ _ Eq). destruct (writing os j); auto.
    + destruct (writing os i) eqn:E; [pose proof (Hc _ _ _ _ H (Hs _ E)); discriminate|]. rewrite un_ins by auto. eapply W_serve; apply Hu; eauto.
    + destruct (writing os i) eqn:E.
      * pose proof (Hc _ _ _ _ H (Hs _ E)) as El. injection El as El.
        assert (Hl : Pipe.lstep (lnk (without_hnd (mkPeer Served l o w))) (lnk (without_hnd (mkPeer Served l' o w)))).
        { destruct H0; cbn; try discriminate.
          - apply L_read. auto.
          - apply L_eof. auto.
          - exfalso. injection El as El _. exact (sending_shorter _ _ _ El). }
        unfold unhandled. cbn [peers wsel wcores signal now_is]. rewrite imap_ins, E. eapply W_link; [|exact Hl|exact H1|exact H2].
        rewrite list_lookup_imap, H. cbn. rewrite E. reflexivity.
      * rewrite un_ins by auto. eapply W_link; eauto.
    + destruct (writing os i) eqn:E; [pose proof (Hc _ _ _ _ H (Hs _ E)) as El; injection El as El _; apply (f_equal hnd) in El; cbn in El; congruence|].
      rewrite un_ins by auto. eapply W_select; eauto.
    + destruct (writing os i) eqn:E; [pose proof (Hc _ _ _ _ H (Hs _ E)); discriminate|]. rewrite un_ins by auto. eapply W_start; eauto.
    + eapply W_run; eauto.
    + destruct (writing os i) eqn:E; [pose proof (Hc _ _ _ _ H (Hs _ E)); discriminate|]. rewrite un_ins by auto. eapply W_reply; eauto.
Qed.
Lemma lift_runs T sl cs ps sg os j c c' : cs !! j = Some c -> rtc (cstep T) c c' ->
  rtc (flows T) (mkW sl cs ps sg Running, os) (mkW sl (<[j := c']> cs) ps sg Running, os).
Proof.
  intros Hj R. revert cs Hj. induction R as [c|c c1 c' Hs _ IH]; intros cs Hj; [rewrite list_insert_id by auto; apply rtc_refl|].
  pose proof (lift T (mkW sl cs ps sg Running) (mkW sl (<[j := c1]> cs) ps sg Running) os ltac:(right; eapply W_run; eauto) ltac:(auto) eq_refl) as H.
  rewrite write_same in H by auto. eapply rtc_l; [exact H|]. specialize (IH (<[j := c1]> cs)). rewrite list_insert_insert in IH. apply IH. apply list_lookup_insert. eapply lookup_lt_Some; eauto.
Qed.
Lemma wact_others now a x y i : wact_f now a x = Some y -> actor a <> Some i -> peers y !! i = peers x !! i.
Proof.
  destruct x as [sl cs ps sg ft]. unfold wact_f. cbn [now_is]. destruct ft; try discriminate. intros H Ha.
  assert (W : forall j f, with_peer (mkW sl cs ps sg Running) j f = Some y -> j <> i -> peers y !! i = ps !! i).
  { intros j f Hw Hn. apply with_peer_some in Hw as (p & p' & _ & _ & ->). cbn. apply list_lookup_insert_ne. auto. }
  destruct a as [j|j a|j|j|j a|[j|j|j n|j]|j| |]; cbn [actor] in Ha; try (eapply W; [exact H|congruence]).
  - cbn [peers] in *. destruct (forallb _ ps); [|discriminate]. eapply W; [exact H|congruence].
  - cbn [peers wsel wcores signal] in *. destruct (ps !! j) as [p|]; [|discriminate]. cbn [mbind option_bind] in H. destruct (stg p); try discriminate. destruct (hnd (lnk p)); try discriminate.
    destruct (runs_on p); [discriminate|]. destruct (is_select cmd); [|discriminate]. destruct (reply_bytes _); [|discriminate]. cbn [mbind option_bind] in H. injection H as <-. cbn. apply list_lookup_insert_ne. congruence.
  - cbn [peers wsel wcores signal] in *. destruct (ps !! j) as [p|]; [|discriminate]. cbn [mbind option_bind] in H. destruct (stg p); try discriminate. destruct (hnd (lnk p)) as [|[|nm args]| |]; try discriminate.
    destruct (runs_on p); [discriminate|]. destruct (is_select _); [discriminate|]. destruct (cs !! sl); [|discriminate]. cbn [mbind option_bind] in H. injection H as <-. cbn. apply list_lookup_insert_ne. congruence.
  - cbn [peers wsel wcores signal] in *. destruct (ps !! j) as [p|]; [|discriminate]. cbn [mbind option_bind] in H. destruct (runs_on p); [|discriminate]. cbn [mbind option_bind] in H.
    destruct (cs !! _); [|discriminate]. cbn [mbind option_bind] in H. injection H as <-. reflexivity.
  - cbn [peers wsel wcores signal] in *. destruct (ps !! j) as [p|]; [|discriminate]. cbn [mbind option_bind] in H. destruct (runs_on p); [|discriminate]. cbn [mbind option_bind] in H.
    destruct (cs !! _) as [c|]; [|discriminate]. cbn [mbind option_bind] in H. destruct (stg p); try discriminate. destruct (hnd (lnk p)); try discriminate. destruct (ths c !! j) as [[q b]|]; [|discriminate].
    destruct q; try discriminate. destruct b; [discriminate|]. destruct (reply_bytes _); [|discriminate]. cbn [mbind option_bind] in H. injection H as <-. cbn. apply list_lookup_insert_ne. congruence.
  - cbn [peers] in *. destruct (ps !! j) as [p|]; [|discriminate]. cbn [mbind option_bind] in H. destruct (can_die _ j p); [|discriminate]. injection H as <-. reflexivity.
  - injection H as <-. reflexivity.
  - cbn in H. destruct sg; [|discriminate]. injection H as <-. reflexivity.
Qed.
Lemma flact_ok now a x y : flact_f now a x = Some y -> rtc (flows (eq now)) x y.
Proof.
  destruct x as [x os]. unfold flact_f. cbn [fst snd]. destruct a as [a|i n|i].
  - destruct (match actor a with Some i => writing os i | None => false end) eqn:Ea; [discriminate|]. destruct (wact_f now a x) as [y0|] eqn:E; [|discriminate]. cbn [mbind option_bind].
    destruct (now_is y0) eqn:Er; try discriminate. intros [= <-].
    destruct (wact_one _ _ _ _ E) as [H1|(sl & cs & ps & sg & j & c & c' & -> & -> & Hj & R)].
    + apply rtc_once. apply lift; auto. intros i Hi. eapply wact_others; eauto. intros Hc. rewrite Hc in Ea. congruence.
    + rewrite write_same by auto. eapply lift_runs; eauto.
  - destruct (now_is x) eqn:Er; try discriminate. destruct (os !! i) as [[w a b]|] eqn:Eo; [|discriminate]. destruct b; [discriminate|]. destruct (take n w) as [|b bs] eqn:Et; [discriminate|].
    intros [= <-]. apply rtc_once. left. rewrite <- Et. apply A_take; [auto|rewrite take_drop; auto|rewrite Et; discriminate].
  - destruct (now_is x) eqn:Er; try discriminate. destruct (os !! i) as [[w a b]|] eqn:Eo; [|discriminate]. destruct b; [discriminate|]. intros [= <-]. apply rtc_once. left. eapply A_break; eauto.
Qed.
Fixpoint flplay (now : Z) (acts : list flact) (x : flow) : option flow :=
  match acts with [] => Some x | a :: r => y ← flact_f now a x; flplay now r y end.
Lemma flplay_ok now acts x y : flplay now acts x = Some y -> rtc (flows (eq now)) x y.
Proof.
  revert x. induction acts as [|a acts IH]; intros x; cbn [flplay]; [intros [= <-]; apply rtc_refl|]. destruct (flact_f now a x) as [x1|] eqn:E; [|discriminate].
  cbn [mbind option_bind]. intros H. etransitivity; [eapply flact_ok; eauto|auto].
Qed.
Lemma flplays {A} now acts x (f : flow -> A) a : f <$> flplay now acts x = Some a -> exists y, rtc (flows (eq now)) x y /\ f y = a.
Proof. destruct (flplay now acts x) as [y|] eqn:E; [|discriminate]. intros [= <-]. exists y. split; [exact (flplay_ok _ _ _ _ E)|reflexivity]. Qed.

(** Nothing happens inside the process but for handlers that wait. *)
Lemma quiet_flow T x os y : wquiet (unhandled os x) = true -> ~ fadvance T (x, os) y.
Proof. intros H [F _]. inversion F as [? ? ? H1 H2]; subst. exact (wquiet_ok _ _ _ H H2). Qed.
End WithParams.
Ltac run_flow now acts x f :=
  let v := eval vm_compute in (f <$> flplay now acts x) in
  match v with Some ?a =>
    let H := fresh in assert (H : f <$> flplay now acts x = Some a) by (vm_cast_no_check (eq_refl (Some a)));
    apply flplays in H
  end.
