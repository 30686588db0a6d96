(** Executable executions of the whole process, for the examples. *)
From Verif Require Export WorldMain PipeSched.

(** What happens next.  [Client], [Go]: as in PipeSched.v, on connection [i]; [Sel], [Beg], [Run], [Rep]: as in NetSched.v; [Die]: a panic in connection [i]. *)
Inductive wact := Connect (i : nat) | Client (i : nat) (a : lact) | Accept (i : nat) | Serve (i : nat) | Go (i : nat) (a : lact) | Cmd (a : act)
  | Die (i : nat) | Signal | Exit.
Section WithParams.
Context {P : Setup}.
Definition with_peer (x : world) (i : nat) (f : peer -> option peer) : option world :=
  p ← peers x !! i; p' ← f p; Some (mkW (wsel x) (wcores x) (<[i := p']> (peers x)) (signal x) Running).
Definition can_die (x : world) (i : nat) (p : peer) : bool :=
  match stg p with Served =>
    match par (lnk p) with PRead b => match read_next (lnk p) b with Some PS_crash => true | _ => false end | _ => false end ||
    match hnd (lnk p), runs_on p with HExec [], None => true | _, _ => false end ||
    match runs_on p with
    | Some j => match wcores x !! j with Some c => match ths c !! i with Some (mkT Crash _) => true | _ => false end | None => false end
    | None => false end
  | _ => false end.
Definition wact_f (now : Z) (a : wact) (x : world) : option world :=
  match now_is x with Running =>
  match a with
  | Connect i => with_peer x i (fun p => match stg p with Away => Some (mkPeer Queued (lnk p) (runs_on p) (written p)) | _ => None end)
  | Client i a => with_peer x i (fun p => match stg p, a with
      | Away, _ => None
      | _, Send _ | _, End _ => l ← lact_f a (lnk p); Some (mkPeer (stg p) l (runs_on p) (written p))
      | _, _ => None end)
  | Accept i => if forallb (fun p => match stg p with Held => false | _ => true end) (peers x)
      then with_peer x i (fun p => match stg p with Queued => Some (mkPeer Held (lnk p) (runs_on p) (written p)) | _ => None end) else None
  | Serve i => with_peer x i (fun p => match stg p with Held => Some (mkPeer Served (lnk p) (runs_on p) (written p)) | _ => None end)
  | Go i a => with_peer x i (fun p => match stg p, a with
      | Served, Read | Served, Pass | Served, Close _ => l ← lact_f a (lnk p); if dead l then None else Some (mkPeer Served l (runs_on p) (written p))
      | _, _ => None end)
  | Cmd (Sel i) => p ← peers x !! i; match stg p, hnd (lnk p), runs_on p with
      | Served, HExec cmd, None => if is_select cmd then
          bs ← reply_bytes (select (mkMgr (wsel x) (map cdb (wcores x))) cmd).1;
          Some (mkW (cur (select (mkMgr (wsel x) (map cdb (wcores x))) cmd).2) (wcores x)
            (<[i := mkPeer Served (reply_to (lnk p) cmd (select (mkMgr (wsel x) (map cdb (wcores x))) cmd).1) None (written p ++ bs)]> (peers x)) (signal x) Running) else None
      | _, _, _ => None end
  | Cmd (Beg i) => p ← peers x !! i; match stg p, hnd (lnk p), runs_on p with
      | Served, HExec (n :: args), None => if is_select (n :: args) then None else
          c ← wcores x !! wsel x;
          Some (mkW (wsel x) (<[wsel x := mkC (cdb c) (lk c) (<[i := mkT (exec_in_db (n :: args)) false]> (ths c))]> (wcores x))
            (<[i := mkPeer Served (lnk p) (Some (wsel x)) (written p)]> (peers x)) (signal x) Running)
      | _, _, _ => None end
  | Cmd (Run i n) => p ← peers x !! i; j ← runs_on p; c ← wcores x !! j; Some (mkW (wsel x) (<[j := go now i n c]> (wcores x)) (peers x) (signal x) Running)
  | Cmd (Rep i) => p ← peers x !! i; j ← runs_on p; c ← wcores x !! j; match stg p, hnd (lnk p), ths c !! i with
      | Served, HExec cmd, Some (mkT (Ret r) false) => bs ← reply_bytes r;
          Some (mkW (wsel x) (wcores x) (<[i := mkPeer Served (reply_to (lnk p) cmd r) None (written p ++ bs)]> (peers x)) (signal x) Running)
      | _, _, _ => None end
  | Die i => p ← peers x !! i; if can_die x i p then Some (mkW (wsel x) (wcores x) (peers x) (signal x) Panicked) else None
  | Signal => Some (mkW (wsel x) (wcores x) (peers x) true Running)
  | Exit => if signal x then Some (mkW (wsel x) (wcores x) (peers x) true Exited) else None
  end
  | _ => None end.
Lemma lact_client a x y : lact_f a x = Some y -> match a with Send _ | End _ => Pipe.client x y | _ => Pipe.lstep x y end.
Proof.
  destruct x as [g u f s p h l d]. cbn [lact_f]. destruct d; [discriminate|]. destruct a as [piece|e| | |r|keep].
  - destruct f; [discriminate|]. destruct s; [discriminate|]. intros [= <-]. constructor. auto.
  - destruct f; [discriminate|]. destruct s; [discriminate|]. intros [= <-]. constructor.
  - destruct p as [b| |]; try discriminate. destruct (read_next _ b) as [[evs b' rest|evs|]|] eqn:E; [| | |discriminate]; intros [= <-]; [eapply L_read|eapply L_eof|eapply L_crash]; eauto.
  - destruct p as [|[|ev evs] nx|]; try discriminate. destruct h; try discriminate. destruct (receive ev) eqn:E; intros [= <-]; [eapply L_pass|eapply L_nil]; eauto.
  - destruct h as [|[|w cmd]| |]; try discriminate. intros [= <-]. constructor. discriminate.
  - destruct h as [| |e|]; try discriminate. intros [= <-]. apply (L_close _ _ _ [drop keep (concat u)]). cbn. rewrite !app_nil_r. symmetry. apply take_drop.
Qed.
Lemma lact_log a x y : lact_f a x = Some y -> match a with Exec _ => True | _ => log y = log x end.
Proof.
  destruct x as [g u f s p h l d]. cbn [lact_f]. destruct d; [discriminate|]. destruct a as [piece|e| | |r|keep].
  - destruct f; [discriminate|]. destruct s; [discriminate|]. intros [= <-]. auto.
  - destruct f; [discriminate|]. destruct s; [discriminate|]. intros [= <-]. auto.
  - destruct p as [b| |]; try discriminate. destruct (read_next _ b) as [[evs b' rest|evs|]|] eqn:E; [| | |discriminate]; intros [= <-]; auto.
  - destruct p as [|[|ev evs] nx|]; try discriminate. destruct h; try discriminate. destruct (receive ev) eqn:E; intros [= <-]; auto.
  - auto.
  - destruct h as [| |e|]; try discriminate. intros [= <-]. auto.
Qed.
Lemma run_wcore T sl cs ps sg j c c' : cs !! j = Some c -> rtc (cstep T) c c' -> rtc (happens T) (mkW sl cs ps sg Running) (mkW sl (<[j := c']> cs) ps sg Running).
Proof.
  intros Hj R. revert cs Hj. induction R as [c|c c1 c' Hs _ IH]; intros cs Hj; [rewrite list_insert_id by auto; apply rtc_refl|].
  eapply rtc_l; [right; eapply W_run; eauto|]. specialize (IH (<[j := c1]> cs)). rewrite list_insert_insert in IH. apply IH. apply list_lookup_insert. eapply lookup_lt_Some; eauto.
Qed.
Lemma with_peer_some x i f y : with_peer x i f = Some y -> exists p p', peers x !! i = Some p /\ f p = Some p' /\ y = mkW (wsel x) (wcores x) (<[i := p']> (peers x)) (signal x) Running.
Proof. unfold with_peer. destruct (peers x !! i) as [p|]; [|discriminate]. cbn. destruct (f p) as [p'|] eqn:E; [|discriminate]. cbn. intros [= <-]. eauto. Qed.
(** One step, or several of the executor of one connection. *)
Lemma wact_one now a x y : wact_f now a x = Some y -> happens (eq now) x y \/
  exists sl cs ps sg j c c', x = mkW sl cs ps sg Running /\ y = mkW sl (<[j := c']> cs) ps sg Running /\ cs !! j = Some c /\ rtc (cstep (eq now)) c c'.
Proof.
  destruct x as [sl cs ps sg ft]. unfold wact_f. cbn [now_is]. destruct ft; try discriminate. destruct a as [i|i a|i|i|i a|[i|i|i n|i]|i| |]; intros H.
  - apply with_peer_some in H as (p & p' & Hp & H & ->). destruct p as [st l o w]. cbn in *. destruct st; try discriminate. injection H as <-. left. left. eapply O_connect; eauto.
  - apply with_peer_some in H as (p & p' & Hp & H & ->). destruct p as [st l o w]. cbn [stg lnk runs_on written peers wsel wcores signal] in *.
    assert (E : st <> Away /\ exists l', lact_f a l = Some l' /\ Pipe.client l l' /\ p' = mkPeer st l' o w).
    { destruct st; try discriminate; (split; [discriminate|]); destruct a; try discriminate; destruct (lact_f _ l) as [l'|] eqn:E; try discriminate; cbn in H; injection H as <-; exists l'; (split; [auto|split; [|auto]]); apply lact_client in E; exact E. }
    destruct E as (Hst & l' & _ & Hc & ->). left. left. eapply O_client; eauto.
  - cbn [peers] in H. destruct (forallb _ ps) eqn:E; [|discriminate]. apply with_peer_some in H as (p & p' & Hp & H & ->). destruct p as [st l o w]. cbn in *. destruct st; try discriminate. injection H as <-.
    left. right. eapply W_accept; eauto. intros j q Hq Hh. rewrite forallb_forall in E. apply elem_of_list_lookup_2, elem_of_list_In, E in Hq. rewrite Hh in Hq. discriminate.
  - apply with_peer_some in H as (p & p' & Hp & H & ->). destruct p as [st l o w]. cbn in *. destruct st; try discriminate. injection H as <-. left. right. eapply W_serve; eauto.
  - apply with_peer_some in H as (p & p' & Hp & H & ->). destruct p as [st l o w]. cbn [stg lnk runs_on written peers wsel wcores signal] in *. destruct st; try discriminate.
    assert (E : exists l', lact_f a l = Some l' /\ Pipe.lstep l l' /\ log l' = log l /\ dead l' = false /\ p' = mkPeer Served l' o w).
    { destruct a; try discriminate; destruct (lact_f _ l) as [l'|] eqn:E; try discriminate; cbn in H; destruct (dead l') eqn:Ed; try discriminate; injection H as <-; exists l'; (split; [auto|]); pose proof (lact_client _ _ _ E) as E1; pose proof (lact_log _ _ _ E) as E2; cbn in E1, E2; auto. }
    destruct E as (l' & _ & Hl & Hlog & Hd & ->). left. right. eapply W_link; eauto.
  - cbn [peers wsel wcores signal] in H. destruct (ps !! i) as [p|] eqn:Hp; [|discriminate]. cbn in H. destruct p as [st l o w]. cbn in H. destruct st; try discriminate. destruct (hnd l) eqn:Eh; try discriminate. destruct o; [discriminate|].
    destruct (is_select cmd) eqn:Es; [|discriminate]. destruct (reply_bytes (select _ cmd).1) as [bs|] eqn:Er; [|discriminate]. cbn in H. injection H as <-. left. right. eapply W_select; eauto.
  - cbn [peers wsel wcores signal] in H. destruct (ps !! i) as [p|] eqn:Hp; [|discriminate]. cbn [mbind option_bind] in H. destruct p as [st l o w]. cbn [stg lnk runs_on written] in H. destruct st; try discriminate.
    destruct (hnd l) as [|[|nm args]| |] eqn:Eh; try discriminate. destruct o; [discriminate|]. destruct (is_select (nm :: args)) eqn:Es; [discriminate|]. destruct (cs !! sl) as [c|] eqn:Ec; [|discriminate].
    cbn [mbind option_bind] in H. injection H as <-. left. right. refine (W_start (eq now) sl cs ps sg i l w (nm :: args) c Hp Eh _ Es Ec). discriminate.
  - cbn [peers wsel wcores signal] in H. destruct (ps !! i) as [p|] eqn:Hp; [|discriminate]. cbn [mbind option_bind] in H. destruct (runs_on p) as [j|]; [|discriminate]. cbn [mbind option_bind] in H.
    destruct (cs !! j) as [c|] eqn:Ec; [|discriminate]. cbn [mbind option_bind] in H. injection H as <-. right. exists sl, cs, ps, sg, j, c, (go now i n c). repeat split; auto. apply go_ok.
  - cbn [peers wsel wcores signal] in H. destruct (ps !! i) as [p|] eqn:Hp; [|discriminate]. cbn [mbind option_bind] in H. destruct p as [st l o w]. cbn [stg lnk runs_on written] in H. destruct o as [j|]; [|discriminate]. cbn [mbind option_bind] in H.
    destruct (cs !! j) as [c|] eqn:Ec; [|discriminate]. cbn [mbind option_bind] in H. destruct st; try discriminate. destruct (hnd l) as [|cmd| |] eqn:Eh; try discriminate.
    destruct (ths c !! i) as [[q b]|] eqn:Et; [|discriminate]. destruct q; try discriminate. destruct b; [discriminate|]. destruct (reply_bytes a) as [bs|] eqn:Er; [|discriminate]. cbn [mbind option_bind] in H. injection H as <-.
    left. right. eapply W_reply; eauto.
  - cbn [peers wsel wcores signal] in H. destruct (ps !! i) as [p|] eqn:Hp; [|discriminate]. cbn [mbind option_bind] in H. destruct (can_die _ i p) eqn:E; [|discriminate]. injection H as <-.
    destruct p as [st l o w]. unfold can_die in E. cbn [stg lnk runs_on written wcores] in E. destruct st; try discriminate. left. right. apply orb_prop in E as [E|E]; [apply orb_prop in E as [E|E]|].
    + destruct (par l) as [b| |] eqn:Ep; try discriminate. destruct (read_next l b) as [[]|] eqn:Er; try discriminate. eapply W_parser_panic; eauto.
    + destruct (hnd l) as [|[|]| |] eqn:Eh; try discriminate. destruct o; [discriminate|]. eapply W_empty_panic; eauto.
    + destruct o as [j|]; [|discriminate]. destruct (cs !! j) as [c|] eqn:Ec; [|discriminate]. destruct (ths c !! i) as [[[] b]|] eqn:Et; try discriminate. eapply W_panic; eauto.
  - injection H as <-. left. left. apply O_signal.
  - cbn in H. destruct sg; [|discriminate]. injection H as <-. left. right. apply W_exit.
Qed.
Lemma wact_ok now a x y : wact_f now a x = Some y -> rtc (happens (eq now)) x y.
Proof.
  intros H. destruct (wact_one _ _ _ _ H) as [H1|(sl & cs & ps & sg & j & c & c' & -> & -> & Hj & R)]; [apply rtc_once; auto|eapply run_wcore; eauto].
Qed.
Fixpoint wplay (now : Z) (acts : list wact) (x : world) : option world :=
  match acts with [] => Some x | a :: r => y ← wact_f now a x; wplay now r y end.
Lemma wplay_ok now acts x y : wplay now acts x = Some y -> rtc (happens (eq now)) x y.
Proof.
  revert x. induction acts as [|a acts IH]; intros x; cbn; [intros [= <-]; apply rtc_refl|]. destruct (wact_f now a x) as [x1|] eqn:E; [|discriminate].
  cbn. intros H. etransitivity; [eapply wact_ok; eauto|auto].
Qed.
Lemma wplays {A} now acts x (f : world -> A) a : f <$> wplay now acts x = Some a -> exists y, rtc (happens (eq now)) x y /\ f y = a.
Proof. destruct (wplay now acts x) as [y|] eqn:E; [|discriminate]. intros [= <-]. exists y. split; [exact (wplay_ok _ _ _ _ E)|reflexivity]. Qed.
Lemma in_peers {A} x (f : peer -> A) l i p : map f (peers x) = l -> peers x !! i = Some p -> l !! i = Some (f p).
Proof. intros <- H. change (map f (peers x)) with (f <$> peers x). rewrite list_lookup_fmap, H. reflexivity. Qed.
(** Nothing happens inside the process. *)
Definition wquiet (x : world) : bool :=
  negb (signal x) &&
  forallb (fun p => match stg p with Away => true | Served => rests_f (lnk p) && match runs_on p with None => true | _ => false end | _ => false end) (peers x) &&
  forallb (fun c => forallb (fun t => match t with mkT (Ret _) false => true | _ => false end) (ths c)) (wcores x).
Lemma wquiet_ok T x y : wquiet x = true -> ~ wstep T x y.
Proof.
  intros [[Hg Hp]%andb_prop Hc]%andb_prop. rewrite forallb_forall in Hp. rewrite forallb_forall in Hc. intros St.
  assert (HP : forall i p, peers x !! i = Some p -> stg p = Away \/ (stg p = Served /\ rests_f (lnk p) = true /\ runs_on p = None)).
  { intros i p Hi. apply elem_of_list_lookup_2, elem_of_list_In, Hp in Hi. destruct (stg p); auto; try discriminate. apply andb_prop in Hi as [H1 H2]. destruct (runs_on p); [discriminate|]. auto. }
  assert (HQ : forall j c i p b, wcores x !! j = Some c -> ths c !! i = Some (mkT p b) -> exists r, p = Ret r /\ b = false).
  { intros j c i p b Hj Hi. apply elem_of_list_lookup_2, elem_of_list_In, Hc in Hj. rewrite forallb_forall in Hj. apply elem_of_list_lookup_2, elem_of_list_In, Hj in Hi.
    destruct p; try discriminate. destruct b; [discriminate|]. eauto. }
  assert (HR : forall l, rests_f l = true -> (forall l', ~ Pipe.lstep l l') /\ forall cmd, hnd l <> HExec cmd).
  { intros l H. split; [apply (rests_ok l H)|]. intros cmd E. unfold rests_f in H. rewrite E, andb_false_r in H. discriminate. }
  destruct St; cbn [peers wcores signal] in *; try (destruct (HP _ _ H) as [E|(E & E1 & E2)]; cbn in E; try discriminate E; cbn in E1, E2; destruct (HR _ E1) as [R1 R2]; try discriminate E2; try (eapply R2; eauto; fail)).
  - discriminate.
  - eapply R1; eauto.
  - destruct l as [g u f s pp h lg d]. cbn in *. subst pp. unfold rests_f in E1. cbn [par dead hnd] in E1. rewrite H1 in E1. rewrite andb_false_r in E1. discriminate.
  - destruct l as [g u f s pp h lg d]. cbn in *. subst pp h. unfold rests_f in E1. cbn [par dead hnd] in E1. rewrite andb_false_r in E1. discriminate.
  - inversion H0; subst; cbn in *; match goal with Hi : _ !! _ = Some (mkT _ _) |- _ => destruct (HQ _ _ _ _ _ H Hi) as (r & -> & Hb) || (destruct (HQ _ _ _ _ _ H Hi) as (r & Hr & Hb); discriminate) end.
    match goal with Hx : prim _ _ _ _ _ |- _ => inversion Hx end.
  - destruct (HQ _ _ _ _ _ H H0) as (r & E & _). discriminate.
Qed.
End WithParams.
(** [run_world now acts x f]: a run by [acts], and what [f] shows of the state it ends in. *)
Ltac run_world now acts x f :=
  let v := eval vm_compute in (f <$> wplay now acts x) in
  match v with Some ?a =>
    let H := fresh in assert (H : f <$> wplay now acts x = Some a) by (vm_cast_no_check (eq_refl (Some a)));
    apply wplays in H
  end.
