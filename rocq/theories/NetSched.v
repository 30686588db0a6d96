(** Executable schedules of the server, for the concrete executions shown beside the theorems. *)
From Verif Require Export Net Sched.

(** What connection [i] does next: SELECT, start its command, run it for up to [n] steps, deliver the reply. *)
Inductive act := Sel (i : nat) | Beg (i : nat) | Run (i n : nat) | Rep (i : nat).
Section WithParams.
Context {P : Setup}.
Definition nact (now : Z) (a : act) (x : server) : option server :=
  let 'mkServer sl cs ss := x in
  match a with
  | Sel i => match ss !! i with
    | Some (mkConn h None (cmd :: rest)) => if is_select cmd then
        Some (mkServer (cur (select (mkMgr sl (map cdb cs)) cmd).2) cs (<[i := mkConn (h ++ [(cmd, (select (mkMgr sl (map cdb cs)) cmd).1)]) None rest]> ss)) else None
    | _ => None end
  | Beg i => match ss !! i, cs !! sl with
    | Some (mkConn h None (cmd :: rest)), Some c => if is_select cmd then None else
        Some (mkServer sl (<[sl := mkC (cdb c) (lk c) (<[i := mkT (exec_in_db cmd) false]> (ths c))]> cs) (<[i := mkConn h (Some (cmd, sl)) rest]> ss))
    | _, _ => None end
  | Run i n => match ss !! i with
    | Some (mkConn _ (Some (_, j)) _) => match cs !! j with Some c => Some (mkServer sl (<[j := go now i n c]> cs) ss) | None => None end
    | _ => None end
  | Rep i => match ss !! i with
    | Some (mkConn h (Some (cmd, j)) rest) => match cs !! j with
      | Some c => match ths c !! i with Some (mkT (Ret r) false) => Some (mkServer sl cs (<[i := mkConn (h ++ [(cmd, r)]) None rest]> ss)) | _ => None end
      | None => None end
    | _ => None end
  end.
Fixpoint nplay (now : Z) (acts : list act) (x : server) : option server :=
  match acts with [] => Some x | a :: r => y ← nact now a x; nplay now r y end.
Lemma run_core T sl cs ss j c c' : cs !! j = Some c -> rtc (cstep T) c c' -> rtc (nstep T) (mkServer sl cs ss) (mkServer sl (<[j := c']> cs) ss).
Proof.
  intros Hj R. revert cs Hj. induction R as [c|c c1 c' Hs _ IH]; intros cs Hj; [rewrite list_insert_id by auto; apply rtc_refl|].
  eapply rtc_l; [eapply N_run; eauto|]. specialize (IH (<[j := c1]> cs)). rewrite list_insert_insert in IH. apply IH. apply list_lookup_insert. eapply lookup_lt_Some; eauto.
Qed.
Lemma nact_ok now a x y : nact now a x = Some y -> rtc (nstep (eq now)) x y.
Proof.
  destruct x as [sl cs ss]. destruct a as [i|i|i n|i]; cbn; intros H.
  - destruct (ss !! i) as [[h [b|] [|cmd rest]]|] eqn:E; try discriminate. destruct (is_select cmd) eqn:Es; [|discriminate]. injection H as <-. apply rtc_once. eapply N_select; eauto.
  - destruct (ss !! i) as [[h [b|] [|cmd rest]]|] eqn:E; try discriminate. destruct (cs !! sl) as [c|] eqn:Ec; [|discriminate]. destruct (is_select cmd) eqn:Es; [discriminate|].
    injection H as <-. apply rtc_once. eapply N_start; eauto.
  - destruct (ss !! i) as [[h [[cmd j]|] rest]|] eqn:E; try discriminate. destruct (cs !! j) as [c|] eqn:Ec; [|discriminate]. injection H as <-. eapply run_core; eauto. apply go_ok.
  - destruct (ss !! i) as [[h [[cmd j]|] rest]|] eqn:E; try discriminate. destruct (cs !! j) as [c|] eqn:Ec; [|discriminate].
    destruct (ths c !! i) as [[p b]|] eqn:Et; [|discriminate]. destruct p; try discriminate. destruct b; [discriminate|]. injection H as <-. apply rtc_once. eapply N_reply; eauto.
Qed.
Lemma nplay_ok now acts x y : nplay now acts x = Some y -> rtc (nstep (eq now)) x y.
Proof.
  revert x. induction acts as [|a acts IH]; intros x; cbn; [intros [= <-]; apply rtc_refl|]. destruct (nact now a x) as [x1|] eqn:E; [|discriminate].
  cbn. intros H. etransitivity; [eapply nact_ok; eauto|auto].
Qed.
Lemma rtc_path {X} (R : X -> X -> Prop) x y : rtc R x y -> exists N (f : nat -> X), f 0%nat = x /\ f N = y /\ forall n, (n < N)%nat -> R (f n) (f (S n)).
Proof.
  induction 1 as [x|x x1 y H _ (N & f & H0 & HN & Hf)].
  - exists 0%nat, (fun _ => x). split; auto. split; auto. intros; lia.
  - exists (S N), (fun n => match n with O => x | S n => f n end). split; auto. split; auto. intros [|n] Hn; [rewrite H0; auto|apply Hf; lia].
Qed.
End WithParams.

#[local] Existing Instance demo_setup.
(** [may_answer now ds css rs]: there is an execution of the server, on the databases [ds] and with the first selected, in which
    the connections send the commands [css] and are answered [rs]. *)
Definition may_answer (now : Z) (ds : list db) (css : list (list (list string))) (rs : list (list rdata)) : Prop :=
  exists N (f : nat -> server), f 0%nat = serve 0 ds (map (map C) css) /\ (forall n, (n < N)%nat -> nstep (eq now) (f n) (f (S n))) /\
    map (fun s => map snd (answered s)) (sess (f N)) = rs.
Lemma plays acts now ds css rs :
  (match nplay now acts (serve 0 ds (map (map C) css)) with Some x => bool_decide (map (fun s => map snd (answered s)) (sess x) = rs) | None => false end) = true ->
  may_answer now ds css rs.
Proof.
  destruct (nplay now acts _) as [x|] eqn:E; [|discriminate]. intros H%bool_decide_eq_true. destruct (rtc_path _ _ _ (nplay_ok _ _ _ _ E)) as (N & f & H0 & HN & Hf).
  exists N, f. split; auto. split; auto. rewrite HN. exact H.
Qed.
(** Everything has returned: no step is possible. *)
Definition quiet (x : server) : bool :=
  forallb (fun s => match s with mkConn _ None [] => true | _ => false end) (sess x) &&
  forallb (fun c => forallb (fun t => match t with mkT (Ret _) false => true | _ => false end) (ths c)) (cores x).
Lemma quiet_ok T x y : quiet x = true -> ~ nstep T x y.
Proof.
  intros [Hs Hc]%andb_prop. rewrite forallb_forall in Hs. rewrite forallb_forall in Hc. intros St.
  inversion St as [sl cs ss i h cmd rest Hi Es|sl cs ss i h cmd rest c Hi Es Hj|sl cs ss j c c' Hj Hstep|sl cs ss i h cmd j rest c r Hi Hj Ht]; subst; cbn in *.
  - apply elem_of_list_lookup_2, elem_of_list_In, Hs in Hi. discriminate.
  - apply elem_of_list_lookup_2, elem_of_list_In, Hs in Hi. discriminate.
  - apply elem_of_list_lookup_2, elem_of_list_In, Hc in Hj. rewrite forallb_forall in Hj.
    assert (Q : forall i p b, ths c !! i = Some (mkT p b) -> exists r, p = Ret r /\ b = false).
    { intros i p b Hi. apply elem_of_list_lookup_2, elem_of_list_In, Hj in Hi. destruct p; try discriminate. destruct b; [discriminate|]. eauto. }
    inversion Hstep; subst; cbn in *; match goal with H : _ !! _ = Some (mkT _ _) |- _ => destruct (Q _ _ _ H) as (r & -> & Hb) || (destruct (Q _ _ _ H) as (r & Hr & Hb); discriminate) end.
    match goal with H : prim _ _ _ _ _ |- _ => inversion H end.
  - apply elem_of_list_lookup_2, elem_of_list_In, Hs in Hi. discriminate.
Qed.
