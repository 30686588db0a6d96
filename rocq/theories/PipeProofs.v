(** Proofs about one connection. *)
From Verif Require Export SpecPipe WireProofs.
#[local] Arguments parse_stream : simpl never.
#[local] Arguments Pr : simpl never.
#[local] Arguments readline : simpl never.
#[local] Arguments pstep : simpl never.

(** ** More input does not change what has been read *)
Lemma read_bytes_more st q a r : read_bytes st = Some (a, r) -> read_bytes (st ++ q) = Some (a, r ++ q).
Proof.
  revert a r. induction st as [|ch st IH]; intros a r; cbn; [discriminate|].
  destruct (split_nl ch) as [[a0 b0]|]; [intros [= <- <-]; auto|].
  destruct (read_bytes st) as [[a0 r0]|]; [|discriminate]. intros [= <- <-]. rewrite (IH _ _ eq_refl). auto.
Qed.
Lemma read_full_more st q : forall n acc m r, read_full_acc st n acc = RF_ok m r -> read_full_acc (st ++ q) n acc = RF_ok m (r ++ q).
Proof.
  induction st as [|ch st IH]; intros n acc m r.
  - destruct n; cbn; [intros [= <- <-]; destruct q; auto|destruct acc; discriminate].
  - destruct n; cbn; [intros [= <- <-]; auto|]. destruct (length ch) as [|k]; cbn; [|destruct (Nat.leb n k)]; [|intros [= <- <-]; auto|]; apply IH.
Qed.
Lemma readline_more b st q : hits_end b st = false ->
  readline (st ++ q) b = match readline st b with RL_ok m r => RL_ok m (r ++ q) | RL_err e r => RL_err e (r ++ q) | RL_crash => RL_crash end.
Proof.
  unfold hits_end, readline. destruct (multi_line b).
  - destruct (make_ok _ 1); auto. unfold read_full. destruct (read_full_acc st _ []) as [m r| |] eqn:E; try discriminate. intros _.
    rewrite (read_full_more _ q _ _ _ _ E). destruct (ends_crlf m); auto.
  - destruct (read_bytes st) as [[m r]|] eqn:E; [|discriminate]. intros _. rewrite (read_bytes_more _ q _ _ E).
    destruct (rev m) as [|x [|y l]]; auto. destruct (code y =? 13)%N; auto.
Qed.
Lemma pstep_add b st q : hits_end b st = false ->
  pstep b (st ++ q) = match pstep b st with PS_more evs b' r => PS_more evs b' (r ++ q) | o => o end.
Proof.
  intros H. unfold pstep. rewrite (readline_more _ _ q H). unfold hits_end in H. destruct (readline st b) as [m r|e r|]; auto.
  - destruct (multi_line b); [destruct (deliver _ _); auto|]. destruct m as [|t m]; auto.
    destruct (code t =? 36)%N; [destruct (parse_bulk_header _ _); auto; destruct (_ =? _); auto; destruct (deliver _ _); auto|].
    destruct (code t =? 42)%N; [destruct (parse_array_header _ _); auto; repeat (destruct (_ =? _); auto)|].
    destruct (parse_single_line _) as [[d|e]|]; auto. destruct (deliver d b); auto.
  - destruct e; auto; discriminate.
Qed.
Lemma pstep_end b st : hits_end b st = true -> pstep b st = PS_close [EvErr EEof] \/ pstep b st = PS_more [EvErr EUnexpectedEof] empty_buf [].
Proof.
  unfold hits_end, pstep, readline. destruct (multi_line b).
  - destruct (make_ok _ 1); [|discriminate]. destruct (read_full st _) as [m r| |]; auto. destruct (ends_crlf m); discriminate.
  - destruct (read_bytes st) as [[m r]|]; auto. destruct (rev m) as [|x [|y l]]; try discriminate. destruct (code y =? 13)%N; discriminate.
Qed.
(** One iteration sends at most one value, and io.EOF only at the end. *)
Lemma deliver_one d b evs b' : deliver d b = (evs, b') -> evs = [] \/ exists d, evs = [EvData d].
Proof. unfold deliver. destruct (in_array b); [destruct (_ =? _)|]; intros [= <- <-]; eauto. Qed.
Lemma pstep_one b st : hits_end b st = false ->
  match pstep b st with
  | PS_more evs _ _ => evs = [] \/ (exists d, evs = [EvData d]) \/ exists e, e <> EEof /\ evs = [EvErr e]
  | PS_close _ => False
  | PS_crash => True
  end.
Proof.
  intros H. unfold pstep. unfold hits_end in H.
  assert (Hd : forall evs : list event, (evs = [] \/ exists d, evs = [EvData d]) -> evs = [] \/ (exists d, evs = [EvData d]) \/ exists e, e <> EEof /\ evs = [EvErr e]) by (intros ? [?|?]; auto).
  destruct (readline st b) as [m r|e r|]; auto.
  - destruct (multi_line b); [destruct (deliver _ _) eqn:E; apply Hd; eapply deliver_one; eauto|]. destruct m as [|t m]; auto.
    destruct (code t =? 36)%N; [destruct (parse_bulk_header _ _) as [b1|]; [destruct (_ =? _); auto; destruct (deliver _ _) eqn:E; apply Hd; eapply deliver_one; eauto|]|].
    { right; right. exists ESyntax. split; [discriminate|auto]. }
    destruct (code t =? 42)%N; [destruct (parse_array_header _ _) as [b1|]; [repeat (destruct (_ =? _); eauto)|]|].
    { right; right. exists ESyntax. split; [discriminate|auto]. }
    unfold parse_single_line. destruct (body _) as [d|]; auto.
    destruct (code t =? 43)%N; [destruct (deliver _ _) eqn:E; apply Hd; eapply deliver_one; eauto|].
    destruct (code t =? 45)%N; [destruct (deliver _ _) eqn:E; apply Hd; eapply deliver_one; eauto|].
    destruct (code t =? 58)%N; [|destruct (deliver _ _) eqn:E; apply Hd; eapply deliver_one; eauto].
    destruct (parse_int d) as [n [o|]]; [right; right; exists ESyntax; split; [discriminate|auto]|destruct (deliver _ _) eqn:E; apply Hd; eapply deliver_one; eauto].
  - destruct e; try discriminate; right; right; eexists; (split; [|eauto]); discriminate.
Qed.
Lemma Pr_st b st : buf_ok b -> Pr b (concat st) =
  match pstep b st with
  | PS_crash => ([], Crashed)
  | PS_close evs => (evs, Closed)
  | PS_more evs b' st' => pre evs (Pr b' (concat st'))
  end.
Proof.
  intros Hb. unfold Pr at 1. rewrite (parse_loop_eqv _ b [concat st] st) by (cbn; rewrite app_nil_r; auto). rewrite parse_loop_S.
  pose proof (pstep_shrinks b st Hb) as Hs. destruct (pstep b st) as [evs b' st'| |]; auto. destruct Hs as [Hs Hb'].
  unfold Pr. rewrite (parse_loop_eqv _ b' st' [concat st']) by (cbn; rewrite app_nil_r; auto).
  rewrite (parse_loop_fuel _ (S (length (concat st')))) by (auto; cbn [concat]; rewrite app_nil_r; lia).
  unfold pre. destruct (parse_loop _ _ _); auto.
Qed.

(** ** The invariant *)
Definition cmd_of (ev : event) : list command :=
  match ev with
  | EvData (RArr l) => match to_command (match l with Some l => l | None => [] end) with Some c => [c] | None => [] end
  | _ => []
  end.
Definition is_data (ev : event) : Prop := match ev with EvData _ => True | _ => False end.
Definition cmds_of (evs : list event) : list command := concat (map cmd_of evs).
Definition allowed (x : link) (q : stream) : Prop := (ended x = None /\ shut x = false) \/ q = [].
(** What the parser sends, or the handler has received. *)
Definition err_clause (x : link) (passed : list event) (e : rerr) : Prop :=
  (forall q, allowed x q -> exists e' tl, (parse_stream (given x ++ q)).1 = passed ++ EvErr e' :: tl /\ (ended x <> Some Reset -> e' = e)) /\
  (e = EEof -> ended x = Some Ended).
Definition data_clause (x : link) (passed : list event) (b : rbuf) : Prop :=
  buf_ok b /\ forall q, allowed x q -> (parse_stream (given x ++ q)).1 = passed ++ (Pr b (concat (unread x ++ q))).1.
Definition clause (x : link) (passed : list event) : Prop :=
  match hnd x with
  | HIdle | HExec _ => shut x = false /\
      match par x with
      | PRead b => data_clause x passed b
      | PSend [EvData d] (Some b) => data_clause x (passed ++ [EvData d]) b
      | PSend [EvErr e] _ => err_clause x passed e
      | _ => False
      end
  | HClosing e => shut x = false /\ err_clause x passed e
  | HGone e => err_clause x passed e
  end.
Definition J (x : link) : Prop :=
  exists passed, handed x = cmds_of passed /\ Forall is_data passed /\
    (forall q, allowed x q -> exists tl, (parse_stream (given x ++ q)).1 = passed ++ tl) /\ (dead x = false -> clause x passed).
Lemma J_opened : J opened.
Proof.
  exists []. split; auto. split; auto. split; [eauto|]. intros _. split; auto. split; [apply empty_ok|]. intros q _. change ((parse_stream q).1 = (Pr empty_buf (concat q)).1). rewrite parse_stream_Pr. auto.
Qed.
Lemma prefix_of_clause x passed b : data_clause x passed b -> forall q, allowed x q -> exists tl, (parse_stream (given x ++ q)).1 = passed ++ tl.
Proof. intros [_ H] q Hq. eexists. apply H; auto. Qed.
Lemma J_client x y : J x -> client x y -> J y.
Proof.
  intros (passed & Hh & Hd & Hp & Hc) St. exists passed. inversion St; subst.
  - split; auto. split; auto.
    assert (Hq : forall q, allowed (mkLink g u None false p h l false) (piece :: q)) by (intros; left; auto).
    split; [intros q _; cbn; rewrite <- app_assoc; apply (Hp (piece :: q)); auto|]. intros _. specialize (Hc eq_refl). unfold clause in *. cbn in *.
    assert (E1 : forall ps e, err_clause (mkLink g u None false p h l false) ps e -> err_clause (mkLink (g ++ [piece]) (u ++ [piece]) None false p h l false) ps e).
    { intros ps e [H1 H2]. split; auto. intros q _. cbn. rewrite <- app_assoc. apply (H1 (piece :: q)). auto. }
    assert (E2 : forall ps b, data_clause (mkLink g u None false p h l false) ps b -> data_clause (mkLink (g ++ [piece]) (u ++ [piece]) None false p h l false) ps b).
    { intros ps b [H1 H2]. split; auto. intros q _. cbn. rewrite <- !app_assoc. apply (H2 (piece :: q)). auto. }
    destruct h; try (destruct Hc as [Hs Hc]; split; [exact Hs|]); auto; destruct p as [b|[|[d|e'] [|]] [b|]|]; auto.
  - split; auto. split; auto. assert (Hq : forall q, allowed (mkLink g u (Some e) false p h l false) q -> q = []) by (intros q [[? ?]|?]; [discriminate|auto]).
    split; [intros q Hq1; apply Hq in Hq1 as ->; apply (Hp []); left; auto|]. intros _. specialize (Hc eq_refl). unfold clause in *. cbn in *.
    assert (E1 : forall ps e0, err_clause (mkLink g u None false p h l false) ps e0 -> err_clause (mkLink g u (Some e) false p h l false) ps e0).
    { intros ps e0 [H1 H2]. split; [|intros E; specialize (H2 E); discriminate]. intros q Hq1. destruct (H1 q) as (e' & tl & H3 & H4); [left; auto|].
      exists e', tl. split; auto; intros _; apply H4; discriminate. }
    assert (E2 : forall ps b, data_clause (mkLink g u None false p h l false) ps b -> data_clause (mkLink g u (Some e) false p h l false) ps b).
    { intros ps b [H1 H2]. split; auto. intros q _. apply H2. left; auto. }
    destruct h; try (destruct Hc as [Hs Hc]; split; [exact Hs|]); auto; destruct p as [b|[|[d|e'] [|]] [b|]|]; auto.
Qed.
(** What a read does to the clauses of a living handler. *)
Definition read_res (g : stream) (f : option stop) (s : bool) (h : hstate) (l : list (command * rdata)) (r : pstep_res) : option link :=
  match r with
  | PS_more evs b' rest => Some (mkLink g rest f s (sending evs (Some b')) h l false)
  | PS_close evs => Some (mkLink g [] f s (sending evs None) h l false)
  | PS_crash => None
  end.
Lemma read_clause g u f h l b passed r : (forall e, h <> HClosing e) -> (forall e, h <> HGone e) ->
  clause (mkLink g u f false (PRead b) h l false) passed -> read_next (mkLink g u f false (PRead b) h l false) b = Some r ->
  forall y, read_res g f false h l r = Some y -> clause y passed.
Proof.
  intros N1 N2 Hc Hr y Hy.
  assert (Hb : data_clause (mkLink g u f false (PRead b) h l false) passed b) by (destruct h as [| |e|e]; [apply Hc|apply Hc|destruct (N1 e); auto|destruct (N2 e); auto]).
  assert (G : forall p u', match p with
      | PRead b0 => data_clause (mkLink g u' f false p h l false) passed b0
      | PSend [EvData d] (Some b0) => data_clause (mkLink g u' f false p h l false) (passed ++ [EvData d]) b0
      | PSend [EvErr e] _ => err_clause (mkLink g u' f false p h l false) passed e
      | _ => False end -> clause (mkLink g u' f false p h l false) passed).
  { intros p u' Hp. unfold clause. cbn. destruct h as [| |e|e]; [auto|auto|destruct (N1 e); auto|destruct (N2 e); auto]. }
  clear Hc. destruct Hb as [Hb Hq]. unfold read_next in Hr. cbn in Hr, Hq.
  assert (Hend : forall q, hits_end b u = true -> allowed (mkLink g u f false (PRead b) h l false) q -> f <> None ->
            exists e' tl, (parse_stream (g ++ q)).1 = passed ++ EvErr e' :: tl /\ (pstep b u = PS_close [EvErr EEof] /\ e' = EEof \/ pstep b u = PS_more [EvErr EUnexpectedEof] empty_buf [] /\ e' = EUnexpectedEof)).
  { intros q E Hall Hf. assert (q = []) as -> by (destruct Hall as [[? _]|?]; [cbn in *; congruence|auto]). rewrite (Hq []) by auto.
    rewrite !app_nil_r, Pr_st by auto. destruct (pstep_end b u E) as [->| ->]; cbn; eauto 10. }
  destruct (hits_end b u) eqn:E.
  - destruct f as [e|]; [|discriminate]. destruct e; cbv beta iota in Hr.
    + injection Hr as <-. destruct (pstep_end b u E) as [Ep|Ep]; rewrite Ep in Hy; cbn in Hy; injection Hy as <-; apply G; cbn.
      * split; auto. intros q Hall. destruct (Hend q eq_refl Hall) as (e' & tl & H1 & [[H2 H3]|[H2 H3]]); try congruence. exists e', tl. auto.
      * split; [|discriminate]. intros q Hall. destruct (Hend q eq_refl Hall) as (e' & tl & H1 & [[H2 H3]|[H2 H3]]); try congruence. exists e', tl. auto.
    + injection Hr as <-. cbn in Hy. injection Hy as <-. apply G. cbn. split; [|discriminate]. intros q Hall. destruct (Hend q eq_refl Hall) as (e' & tl & H1 & _); try congruence.
      exists e', tl. split; auto. cbn. congruence.
  - injection Hr as <-. pose proof (pstep_one b u E) as H1. pose proof (pstep_shrinks b u Hb) as H2.
    assert (Hpr : forall q, (Pr b (concat (u ++ q))).1 = match pstep b u with PS_crash => [] | PS_close evs => evs | PS_more evs b' r => evs ++ (Pr b' (concat (r ++ q))).1 end).
    { intros q. rewrite Pr_st, (pstep_add _ _ _ E) by auto. destruct (pstep b u); auto. }
    destruct (pstep b u) as [evs b' r'|evs|]; [|destruct H1|discriminate]. cbn in Hy. injection Hy as <-. apply G. destruct H2 as [_ H2].
    destruct H1 as [->|[(d & ->)|(e & He & ->)]]; cbn.
    + split; auto. intros q Hall. cbn [given unread]. rewrite (Hq q Hall), Hpr. auto.
    + split; auto. intros q Hall. cbn [given unread]. rewrite (Hq q Hall), Hpr, <- app_assoc. auto.
    + split; [|congruence]. intros q Hall. cbn [given unread]. rewrite (Hq q Hall), Hpr. cbn. eauto.
Qed.
Lemma cmds_of_app a b : cmds_of (a ++ b) = cmds_of a ++ cmds_of b.
Proof. unfold cmds_of. rewrite map_app, concat_app. auto. Qed.
Lemma J_step x y : J x -> lstep x y -> J y.
Proof.
  intros (passed & Hh & Hd & Hp & Hc) St.
  assert (R : forall g u f s b h l r y0, x = mkLink g u f s (PRead b) h l false -> read_next x b = Some r -> read_res g f s h l r = Some y0 -> J y0).
  { intros g u f s b h l r y0 -> Hr Hy. exists passed.
    assert (Ho : given y0 = g /\ log y0 = l /\ hnd y0 = h /\ ended y0 = f /\ shut y0 = s) by (destruct r; cbn in Hy; [injection Hy as <-| injection Hy as <-|discriminate]; auto).
    destruct Ho as (O1 & O2 & O3 & O4 & O5). unfold handed in *. cbn in Hh. rewrite O2, O3.
    split; auto. split; auto. unfold allowed in *. cbn in Hp. rewrite O1, O4, O5. split; auto. intros _. specialize (Hc eq_refl).
    destruct h as [|cmd|e|e] eqn:Eh.
    - assert (s = false) as -> by apply Hc. refine (read_clause _ _ _ _ _ _ _ _ _ _ Hc Hr _ Hy); discriminate.
    - assert (s = false) as -> by apply Hc. refine (read_clause _ _ _ _ _ _ _ _ _ _ Hc Hr _ Hy); discriminate.
    - unfold clause, err_clause, allowed in *. rewrite O1, O3, O4, O5. exact Hc.
    - unfold clause, err_clause, allowed in *. rewrite O1, O3, O4, O5. exact Hc. }
  inversion St; subst.
  - eapply R; eauto; reflexivity.
  - eapply R; eauto; reflexivity.
  - exists passed. split; [exact Hh|]. split; [exact Hd|]. split; [exact Hp|]. discriminate.
  - specialize (Hc eq_refl). unfold clause in Hc. cbn in Hc. destruct Hc as [-> Hc]. unfold handed in Hh. cbn in Hh. rewrite app_nil_r in Hh.
    assert (Herr : forall e p, evs = [] -> ev = EvErr e -> err_clause (mkLink g u f false (PSend (ev :: evs) nx) HIdle l false) passed e ->
              J (mkLink g u f false p h' l false)).
    { intros e p -> -> Hc'. cbn in H. injection H as <-. exists passed. unfold handed; cbn; rewrite app_nil_r. split; [exact Hh|]. split; [exact Hd|]. split; [exact Hp|]. intros _. split; auto. }
    destruct ev as [d|e]; [|destruct evs; [|destruct nx; destruct Hc]; destruct nx; eapply Herr; eauto].
    destruct evs; [|destruct Hc]. destruct nx as [b|]; [|destruct Hc]. clear Herr. cbn. exists (passed ++ [EvData d]).
    assert (Hcmd : handed (mkLink g u f false (PRead b) h' l false) = cmds_of (passed ++ [EvData d]) /\ (forall e, h' <> HClosing e) /\ (forall e, h' <> HGone e)).
    { rewrite cmds_of_app. unfold handed. cbn. rewrite <- Hh. destruct d; cbn in H |- *; try (injection H as <-; cbn; rewrite ?app_nil_r; split; auto; split; discriminate).
      destruct (to_command _); [|discriminate]. injection H as <-. cbn. split; auto; split; discriminate. }
    destruct Hcmd as (Hcmd & N1 & N2). split; auto. split; [apply Forall_app; split; auto; repeat constructor|]. split; [exact (prefix_of_clause _ _ _ Hc)|].
    intros _. unfold clause. cbn. destruct h' as [| |e|e]; [split; auto|split; auto|destruct (N1 e); auto|destruct (N2 e); auto].
  - exists passed. split; [exact Hh|]. split; [exact Hd|]. split; [exact Hp|]. discriminate.
  - exists passed. unfold handed in *. cbn in Hh |- *. rewrite map_app, app_nil_r. cbn. split; [exact Hh|]. split; [exact Hd|]. split; [exact Hp|]. exact Hc.
  - exists passed. split; [exact Hh|]. split; [exact Hd|]. split; [exact Hp|]. discriminate.
  - specialize (Hc eq_refl). unfold clause in Hc. cbn in Hc. destruct Hc as [-> Hc]. exists passed. split; auto. split; auto.
    assert (A : forall q, allowed (mkLink g u' f true p (HGone e) l false) q -> q = []) by (intros q [[_ ?]|?]; [discriminate|auto]).
    split; [intros q Hq; apply A in Hq as ->; apply (Hp []); right; auto|]. intros _. unfold clause; cbn. destruct Hc as [Hc1 Hc2]. split; auto.
    intros q Hq; apply A in Hq as ->. apply (Hc1 []). right; auto.
Qed.
Lemma J_goes x : rtc goes opened x -> J x.
Proof.
  intros R. assert (G : forall a, rtc goes a x -> J a -> J x).
  { clear R. intros a R. induction R as [|a b c St _ IH]; auto. intros Ha. apply IH. destruct St; [eapply J_client|eapply J_step]; eauto. }
  apply (G opened); auto. apply J_opened.
Qed.

(** ** Order *)
Lemma cmds_of_events cs : cmds_of (map cmd_event cs) = cs.
Proof. induction cs as [|c cs IH]; cbn; auto. unfold cmds_of in IH. pose proof (cmd_event_command c) as E. rewrite E. cbn. f_equal. auto. Qed.
Lemma data_prefix passed : forall tl cs evs, Forall is_data passed -> passed ++ tl = map cmd_event cs ++ evs -> (exists e r, evs = EvErr e :: r) ->
  exists cs1 cs2, cs = cs1 ++ cs2 /\ passed = map cmd_event cs1 /\ tl = map cmd_event cs2 ++ evs.
Proof.
  induction passed as [|p passed IH]; intros tl cs evs Hd E He; [exists [], cs; auto|].
  inversion Hd; subst. destruct cs as [|c cs]; cbn in E.
  - destruct He as (e & r & ->). injection E as -> _. contradiction.
  - injection E as -> E. destruct (IH _ _ _ ltac:(eauto) E He) as (cs1 & cs2 & -> & -> & ->). exists (c :: cs1), cs2. auto.
Qed.
Theorem pipe_order cs q x : rtc goes opened x -> sends cs (concat (given x) ++ q) -> exists rest, cs = handed x ++ rest.
Proof.
  intros R Hs. destruct (J_goes x R) as (passed & -> & Hd & Hp & _). destruct (Hp []) as (tl & E); [right; auto|]. rewrite app_nil_r in E.
  destruct (truncated cs _ q (given x) Hs eq_refl) as (cs1 & cs2 & _ & _ & -> & _ & _ & _ & evs & E1 & He). rewrite E1 in E. cbn in E. symmetry in E.
  destruct (data_prefix _ _ _ _ Hd E) as (a & b & -> & -> & _); [destruct He as [->| ->]; eauto|]. rewrite cmds_of_events, <- app_assoc. eauto.
Qed.

(** ** Rest *)
Lemma stands x : rests x -> J x -> (exists b, hnd x = HIdle /\ par x = PRead b /\ hits_end b (unread x) = true /\ ended x = None /\ shut x = false) \/ (exists e, hnd x = HGone e).
Proof.
  intros [Hdead Hr] (passed & _ & _ & _ & Hc). specialize (Hc Hdead). destruct x as [g u f s p h l d]. cbn in *. subst d.
  destruct h as [|cmd|e|e]; eauto.
  - left. unfold clause in Hc. cbn in Hc. destruct Hc as [-> Hc]. destruct p as [b|[|ev evs] nx|].
    + exists b. assert (N : read_next (mkLink g u f false (PRead b) HIdle l false) b = None).
      { destruct (read_next _ b) as [[evs b' rest|evs|]|] eqn:E; auto; [destruct (Hr _ (L_read _ _ _ _ _ _ _ _ _ _ E))|destruct (Hr _ (L_eof _ _ _ _ _ _ _ _ E))|destruct (Hr _ (L_crash _ _ _ _ _ _ _ E))]. }
      unfold read_next in N. cbn in N. destruct (hits_end b u); [|discriminate]. destruct f as [[]|]; try discriminate. auto.
    + destruct nx; destruct Hc.
    + destruct (receive ev) as [h'|] eqn:E; [destruct (Hr _ (L_pass _ _ _ _ _ _ _ _ _ E))|destruct (Hr _ (L_nil _ _ _ _ _ _ _ _ E))].
    + destruct Hc.
  - destruct (Hr _ (L_panic _ _ _ _ _ _ _)).
  - destruct (Hr _ (L_close g u u [] f s p e l ltac:(rewrite app_nil_r; auto))).
Qed.
Theorem pipe_prompt cs x : rtc goes opened x -> sends cs (concat (given x)) -> rests x ->
  map fst (log x) = cs /\ match ended x with None => hnd x = HIdle | Some _ => exists e, hnd x = HGone e end.
Proof.
  intros R Hs Hr. pose proof (J_goes x R) as HJ. pose proof (stands x Hr HJ) as Hst. destruct HJ as (passed & Hh & Hd & Hp & Hc). destruct Hr as [Hdead _]. specialize (Hc Hdead).
  assert (E1 := pipeline_exact cs (given x) Hs).
  destruct Hst as [(b & Hi & Hpar & Hend & He & Hsh)|(e & Hi)]; unfold clause, handed in *; rewrite Hi in *; rewrite app_nil_r in Hh.
  - rewrite Hpar in Hc. destruct Hc as [_ [Hb Hq]]. specialize (Hq [] (or_intror eq_refl)). rewrite !app_nil_r in Hq. rewrite E1, Pr_st in Hq by auto. cbn [fst] in Hq.
    assert (exists e tl, (match pstep b (unread x) with PS_crash => ([], Crashed) | PS_close evs => (evs, Closed) | PS_more evs b' st' => pre evs (Pr b' (concat st')) end).1 = EvErr e :: tl) as (e & tl & Et).
    { destruct (pstep_end _ _ Hend) as [->| ->]; cbn; eauto. }
    rewrite Et in Hq. symmetry in Hq. destruct (data_prefix _ _ _ _ Hd Hq) as (a & c & -> & -> & E); [eauto|].
    destruct c as [|c0 c]; [|discriminate E]. rewrite Hh, cmds_of_events, app_nil_r, He. auto.
  - destruct Hc as [Hq Heof]. destruct (Hq [] (or_intror eq_refl)) as (e' & tl & E & Ee). rewrite app_nil_r, E1 in E. cbn [fst] in E. symmetry in E.
    destruct (data_prefix _ _ _ _ Hd E) as (a & c & -> & -> & E2); [eauto|]. destruct c as [|c0 c]; [|discriminate E2].
    rewrite Hh, cmds_of_events, app_nil_r. split; auto. destruct (ended x) eqn:En; eauto. exfalso. injection E2 as -> _.
    rewrite <- Ee in Heof by discriminate. specialize (Heof eq_refl). discriminate.
Qed.

(** ** The end of the parser *)
Definition K (x : link) : Prop :=
  (forall evs nx, par x = PSend evs nx -> exists ev, evs = [ev] /\ (nx = None <-> ev = EvErr EEof)) /\
  (par x = PGone <-> hnd x = HClosing EEof \/ hnd x = HGone EEof).
Lemma K_read x b evs b' rest : read_next x b = Some (PS_more evs b' rest) -> evs = [] \/ exists ev, evs = [ev] /\ ev <> EvErr EEof.
Proof.
  unfold read_next. destruct (hits_end b (unread x)) eqn:E.
  - destruct (pstep_end _ _ E) as [->| ->]; destruct (shut x); [|destruct (ended x) as [[]|]| |destruct (ended x) as [[]|]]; intros [=]; subst; right; eexists; split; eauto; discriminate.
  - intros [=]. pose proof (pstep_one _ _ E) as H1. rewrite H0 in H1. destruct H1 as [?|[(d & ->)|(e & He & ->)]]; auto; right; eexists; split; eauto; congruence.
Qed.
Lemma K_close x b evs : read_next x b = Some (PS_close evs) -> evs = [EvErr EEof].
Proof.
  unfold read_next. destruct (hits_end b (unread x)) eqn:E.
  - destruct (pstep_end _ _ E) as [->| ->]; destruct (shut x); [|destruct (ended x) as [[]|]| |destruct (ended x) as [[]|]]; intros [=]; auto.
  - intros [=]. pose proof (pstep_one _ _ E) as H1. rewrite H0 in H1. destruct H1.
Qed.
Lemma K_goes x y : K x -> goes x y -> K y.
Proof.
  intros [H1 H2] [St|St].
  - inversion St; subst; split; auto.
  - inversion St; subst; cbn in *.
    + destruct (K_read _ _ _ _ _ H) as [->|(ev & -> & He)]; cbn; split; try discriminate; cbn.
      * split; [discriminate|]. intros Hx. apply H2 in Hx. discriminate.
      * intros evs nx [= <- <-]. exists ev. split; auto. split; [discriminate|congruence].
      * split; [discriminate|]. intros Hx. apply H2 in Hx. discriminate.
    + apply K_close in H as ->. cbn. split; [intros evs nx [= <- <-]; eexists; split; eauto; tauto|]. cbn. split; [discriminate|]. intros Hx. apply H2 in Hx. discriminate.
    + split; auto.
    + destruct (H1 _ _ eq_refl) as (ev0 & [= -> ->] & Hn). destruct nx as [b|]; cbn; split; try discriminate; cbn.
      * split; [discriminate|]. intros Hx. destruct ev0 as [d|e]; cbn in H; [destruct d; try destruct (to_command _); try discriminate H; injection H as <-; destruct Hx; discriminate|].
        injection H as <-. destruct Hx as [[= ->]|Hx]; [|discriminate]. destruct Hn as [_ Hn]. discriminate (Hn eq_refl).
      * split; auto. intros _. destruct Hn as [Hn _]. rewrite (Hn eq_refl) in H. cbn in H. injection H as <-. auto.
    + destruct (H1 _ _ eq_refl) as (ev0 & [= -> ->] & Hn). destruct nx as [b|]; cbn; split; try discriminate; cbn.
      * split; [discriminate|]. intros [?|?]; discriminate.
      * destruct Hn as [Hn _]. rewrite (Hn eq_refl) in H. discriminate.
    + split; auto. rewrite H2. split; intros [?|?]; discriminate.
    + split; auto.
    + split; auto. cbn. rewrite H2. split; intros [Hx|Hx]; try discriminate; injection Hx as ->; auto.
Qed.
Lemma K_reached x : rtc goes opened x -> K x.
Proof.
  intros R. assert (G : forall a, rtc goes a x -> K a -> K x).
  { clear R. intros a R. induction R as [|a b c St _ IH]; auto. intros Ha. apply IH. eapply K_goes; eauto. }
  apply (G opened); auto. split; [discriminate|]. split; [discriminate|intros [?|?]; discriminate].
Qed.
Theorem pipe_gone x e : rtc goes opened x -> hnd x = HGone e -> (par x = PGone <-> e = EEof).
Proof. intros R He. destruct (K_reached x R) as [_ ->]. rewrite He. split; [intros [?|[= ->]]; [discriminate|auto]|intros ->; auto]. Qed.
Lemma gone_stays x y e : hnd x = HGone e -> rtc goes x y -> hnd y = HGone e.
Proof. intros H R. induction R as [|x z y St _ IH]; auto. apply IH. destruct St as [St|St]; inversion St; subst; cbn in *; congruence. Qed.
Theorem pipe_leak x e : rtc goes opened x -> hnd x = HGone e -> e <> EEof -> forall y, rtc goes x y -> par y <> PGone.
Proof. intros R He Hne y Ry Hp. apply Hne. apply (pipe_gone y); auto; [etransitivity; eauto|eapply gone_stays; eauto]. Qed.
Theorem pipe_ends cs x : rtc goes opened x -> sends cs (concat (given x)) -> ended x = Some Ended -> rests x -> hnd x = HGone EEof /\ par x = PGone.
Proof.
  intros R Hs He Hr. destruct (pipe_prompt cs x R Hs Hr) as [_ Hg]. rewrite He in Hg. destruct Hg as [e Hg].
  assert (e = EEof) as ->; [|split; auto; eapply pipe_gone; eauto].
  destruct (J_goes x R) as (passed & Hh & Hd & Hp & Hc). specialize (Hc (proj1 Hr)). unfold clause in Hc. rewrite Hg in Hc. destruct Hc as [Hq _].
  destruct (Hq [] (or_intror eq_refl)) as (e' & tl & E & Ee). rewrite app_nil_r, (pipeline_exact cs (given x) Hs) in E. cbn [fst] in E. symmetry in E.
  destruct (data_prefix _ _ _ _ Hd E) as (a & c & -> & -> & E2); [eauto|]. destruct c as [|c0 c]; [|discriminate E2]. injection E2 as -> _. symmetry. apply Ee. congruence.
Qed.

(** ** Termination *)
Definition par_weight (p : pstate) : nat :=
  match p with PRead _ => 2 | PSend [EvErr _] _ => 1 | PSend _ _ => 5 | PGone => 0 end.
Definition hnd_weight (h : hstate) : nat := match h with HIdle => 10 | HExec _ => 11 | HClosing _ => 1 | HGone _ => 0 end.
Definition weight (x : link) : nat :=
  if dead x then 0 else S (10 * length (concat (unread x)) + par_weight (par x) + hnd_weight (hnd x)).
Definition buf_of (x : link) : Prop :=
  match par x with PRead b => buf_ok b | PSend evs (Some b) => (exists ev, evs = [ev]) /\ buf_ok b | PSend evs None => exists ev, evs = [ev] | PGone => True end.
Lemma read_buf x b : buf_ok b -> match read_next x b with
  | Some (PS_more evs b' rest) => (evs = [] \/ exists ev, evs = [ev]) /\ buf_ok b' /\
      ((length (concat rest) < length (concat (unread x)))%nat \/ length (concat rest) = 0%nat /\ exists e, evs = [EvErr e])
  | Some (PS_close evs) => evs = [EvErr EEof]
  | _ => True end.
Proof.
  intros Hb. destruct (read_next x b) as [[evs b' rest|evs|]|] eqn:E; auto; [|eapply K_close; eauto].
  assert (H1 : evs = [] \/ exists ev, evs = [ev]) by (destruct (K_read _ _ _ _ _ E) as [?|(ev & ? & _)]; eauto). split; auto. clear H1.
  assert (H2 : pstep b (unread x) = PS_more evs b' rest -> buf_ok b' /\
      ((length (concat rest) < length (concat (unread x)))%nat \/ length (concat rest) = 0%nat /\ exists e, evs = [EvErr e])).
  { intros H. pose proof (pstep_shrinks b (unread x) Hb) as H2. rewrite H in H2. destruct H2. auto. }
  unfold read_next in E. destruct (hits_end b (unread x)); [|injection E as E; auto].
  assert (H3 : Some (PS_more [EvErr ENet] empty_buf []) = Some (PS_more evs b' rest) -> buf_ok b' /\
      ((length (concat rest) < length (concat (unread x)))%nat \/ length (concat rest) = 0%nat /\ exists e, evs = [EvErr e])).
  { intros [= <- <- <-]. split; [apply empty_ok|]. right. eauto. }
  destruct (shut x); auto. destruct (ended x) as [[]|]; auto; [|discriminate]. injection E as E. auto.
Qed.
Lemma buf_goes x y : buf_of x -> goes x y -> buf_of y.
Proof.
  intros Hx [St|St]; inversion St; subst; auto; unfold buf_of in *; cbn in *.
  - pose proof (read_buf (mkLink g u f s (PRead b) h l false) _ Hx) as H1. rewrite H in H1. destruct H1 as ([->|(ev & ->)] & H1 & _); cbn; eauto.
  - apply K_close in H as ->. cbn. eauto.
  - destruct nx as [b|]; [destruct Hx as [[? [= -> ->]] ?]|destruct Hx as [? [= -> ->]]]; cbn; auto.
  - destruct nx as [b|]; [destruct Hx as [[? [= -> ->]] ?]|destruct Hx as [? [= -> ->]]]; cbn; auto.
Qed.
Lemma step_weight x y : buf_of x -> lstep x y -> (weight y < weight x)%nat.
Proof.
  intros Hx St; inversion St; subst; unfold weight, buf_of in *; cbn [dead unread par hnd] in *; try lia.
  - pose proof (read_buf (mkLink g u f s (PRead b) h l false) _ Hx) as H1. rewrite H in H1. cbn [unread] in H1. destruct H1 as ([->|(ev & ->)] & H1 & [H2|[H2 (e & H3)]]); try discriminate; cbn [sending par_weight].
    + lia. + destruct ev; lia. + injection H3 as ->. lia.
  - apply K_close in H as ->. cbn. lia.
  - assert (evs = []) as -> by (destruct nx as [b|]; [destruct Hx as [[? [= -> ->]] ?]|destruct Hx as [? [= -> ->]]]; auto).
    assert (par_weight (sending [] nx) <= 2)%nat by (destruct nx; cbn; lia).
    destruct ev as [d|e]; [|cbn in H; injection H as <-; change (par_weight (PSend [EvErr e] nx)) with 1%nat; cbn [hnd_weight]; lia]. assert (hnd_weight h' <= 11)%nat by (destruct d; cbn in H; try destruct (to_command _); try discriminate H; injection H as <-; cbn; lia).
    cbn [par_weight hnd_weight]. lia.
  - cbn. lia.
  - cbn. assert (length (concat u') <= length (concat u))%nat by (rewrite H, app_length; lia). lia.
Qed.
Lemma buf_reached x : rtc goes opened x -> buf_of x.
Proof.
  intros R. assert (G : forall a, rtc goes a x -> buf_of a -> buf_of x).
  { clear R. intros a R. induction R as [|a b c St _ IH]; auto. intros Ha. apply IH. eapply buf_goes; eauto. }
  apply (G opened); auto. apply empty_ok.
Qed.
Theorem pipe_finite (f : nat -> link) : rtc goes opened (f 0%nat) -> ~ (forall n, lstep (f n) (f (S n))).
Proof.
  intros R H. assert (Hb : forall n, buf_of (f n)) by (induction n; [apply buf_reached; auto|eapply buf_goes; [eauto|right; auto]]).
  assert (G : forall n, (weight (f n) + n <= weight (f 0%nat))%nat).
  { induction n; [lia|]. pose proof (step_weight _ _ (Hb n) (H n)). lia. }
  specialize (G (S (weight (f 0%nat)))). lia.
Qed.
