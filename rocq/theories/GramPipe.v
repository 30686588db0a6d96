(** Any bytes at all on a connection: proofs. *)
From Verif Require Export GramProofs PipeCalm.
#[local] Arguments parse_stream : simpl never.
#[local] Arguments Pr : simpl never.
#[local] Arguments pstep : simpl never.

(** ** Commands *)
Lemma commands_app p tl : Forall is_data p -> commands (p ++ tl) = cmds_of p ++ commands tl.
Proof.
  intros H. induction H as [|ev p He H IH]; auto. destruct ev as [d|]; [|destruct He]. unfold cmds_of in *. cbn. rewrite IH. destruct d as [| | | |[l|]|]; cbn; auto. destruct (to_command l); auto.
Qed.
Lemma commands_tail evs e tl : commands (evs ++ EvErr e :: tl) = commands evs.
Proof. induction evs as [|[d|e'] evs IH]; auto. cbn. destruct d; auto. destruct (to_command _); auto. f_equal. auto. Qed.
Lemma commands_end evs t : commands (evs ++ ending_values t) = commands evs.
Proof. destruct t; cbn; rewrite ?app_nil_r; auto using commands_tail. Qed.
Lemma events_of st ks t : reads_as (concat st) ks t -> (parse_stream st).1 = values None ks ++ ending_values t.
Proof. intros H. rewrite (grammar_exact _ _ _ H). reflexivity. Qed.
Theorem any_order x ks t : rtc goes opened x -> reads_as (concat (given x)) ks t -> exists rest, commands (values None ks) = handed x ++ rest.
Proof.
  intros R Hr. destruct (J_goes x R) as (passed & -> & Hd & Hp & _). destruct (Hp []) as (tl & E); [right; auto|]. rewrite app_nil_r, (events_of _ _ _ Hr) in E.
  rewrite <- (commands_end _ t), E, commands_app by auto. eauto.
Qed.
(** ** Errors *)
Definition why (e : rerr) (f : option stop) : Prop := match e with EEof | EUnexpectedEof => f = Some Ended | ENet => f = Some Reset | _ => True end.
Definition whys (x : link) : Prop :=
  (forall e, hnd x = HClosing e \/ hnd x = HGone e -> why e (ended x)) /\
  (shut x = false -> match par x with PSend evs _ => forall e, EvErr e ∈ evs -> why e (ended x) | _ => True end).
Lemma why_more e f : why e None -> why e f.
Proof. destruct e; cbn; auto; discriminate. Qed.
Lemma pstep_whys b st evs b' r e : hits_end b st = false -> pstep b st = PS_more evs b' r -> EvErr e ∈ evs -> forall f, why e f.
Proof.
  intros H E He f. pose proof (pstep_one b st H) as H1. rewrite E in H1. destruct H1 as [->|[[d ->]|(e' & _ & ->)]]; [inversion He|apply elem_of_list_singleton in He; discriminate|].
  apply elem_of_list_singleton in He as [= ->].
  unfold pstep in E. unfold hits_end in H. destruct (readline st b) as [m rr|e0 rr|] eqn:Erl; try discriminate.
  - destruct (multi_line b); [destruct (deliver _ _) as [? ?] eqn:Ed; injection E as -> _ _; apply deliver_one in Ed as [Ed|[? Ed]]; discriminate|]. destruct m as [|t m]; [discriminate|].
    assert (HD : forall d bb, (let '(evs, b2) := deliver d bb in PS_more evs b2 rr) = PS_more [EvErr e'] b' r -> why e' f).
    { intros d bb Hd. destruct (deliver d bb) as [? ?] eqn:Ed. injection Hd as -> _ _. apply deliver_one in Ed as [Ed|[? Ed]]; discriminate. }
    destruct (code t =? 36)%N.
    + destruct (parse_bulk_header _ _) as [b1|]; [|injection E as <- _ _; exact I]. destruct (_ =? _); [|discriminate]. destruct (deliver _ _) as [? ?] eqn:Ed; injection E as -> _ _; apply deliver_one in Ed as [Ed|[? Ed]]; discriminate.
    + destruct (code t =? 42)%N; [destruct (parse_array_header _ _) as [b1|]; [repeat (destruct (_ =? _); try discriminate)|injection E as <- _ _; exact I]|].
      unfold parse_single_line in E. destruct (body _) as [d|]; [|discriminate]. destruct (code t =? 43)%N; [eauto|]. destruct (code t =? 45)%N; [eauto|]. destruct (code t =? 58)%N; [|eauto].
      destruct (parse_int d) as [n [o|]]; [injection E as <- _ _; exact I|eauto].
  - destruct e0; try discriminate; injection E as <- _ _; try exact I. exfalso. unfold readline in Erl. destruct (multi_line b).
    + destruct (make_ok _ _); [|discriminate]. destruct (read_full _ _); try discriminate. destruct (ends_crlf _); discriminate.
    + destruct (read_bytes st) as [[m r0]|]; [|discriminate]. destruct (rev m) as [|? [|? ?]]; try discriminate. destruct (_ =? _)%N; discriminate.
Qed.
Lemma read_whys x b evs b' r e : read_next x b = Some (PS_more evs b' r) -> shut x = false -> EvErr e ∈ evs -> why e (ended x).
Proof.
  unfold read_next. intros H Hs He. destruct (hits_end b (unread x)) eqn:E; [|injection H as H; eapply pstep_whys; eauto]. rewrite Hs in H.
  destruct (ended x) as [[]|]; [|injection H as <- _ _; apply elem_of_list_singleton in He as [= ->]; reflexivity|discriminate].
  injection H as H. destruct (pstep_end _ _ E) as [E'|E']; rewrite E' in H; [discriminate|]. injection H as <- _ _. apply elem_of_list_singleton in He as [= ->]. reflexivity.
Qed.
Lemma sending_whys evs nx f : (forall e, EvErr e ∈ evs -> why e f) -> match sending evs nx with PSend evs' _ => forall e, EvErr e ∈ evs' -> why e f | _ => True end.
Proof. intros H. destruct evs as [|ev evs]; destruct nx; cbn; auto. Qed.
Lemma whys_goes x y : J x -> whys x -> goes x y -> whys y.
Proof.
  intros HJ [W1 W2] [St|St].
  - inversion St; subst; split; cbn in *; auto.
    + intros e0 He0. apply why_more. auto.
    + intros _. specialize (W2 eq_refl). destruct p; auto. intros e0 He0. apply why_more. auto.
  - inversion St; subst; cbn in *.
    + split; auto. intros Hs. apply sending_whys. intros e He. apply (read_whys _ _ _ _ _ _ H); auto.
    + split; auto. cbn. intros Hs. apply sending_whys. intros e He. assert (evs = [EvErr EEof]) as -> by (eapply K_close; eauto). apply elem_of_list_singleton in He as [= ->].
      unfold read_next in H. cbn in H. destruct (hits_end b u) eqn:E; [rewrite Hs in H; destruct f as [[]|]; try discriminate; reflexivity|].
      injection H as H. pose proof (pstep_one _ _ E) as H1. rewrite H in H1. destruct H1.
    + split; auto.
    + destruct HJ as (passed & _ & _ & _ & Hc). specialize (Hc eq_refl). unfold clause in Hc. cbn in Hc. destruct Hc as [-> _]. specialize (W2 eq_refl). split; cbn.
      * intros e [->| ->]; destruct ev as [d|e0]; cbn in H; try (destruct d; try destruct (to_command _); discriminate H); [|discriminate H]. assert (e0 = e) as -> by congruence. apply W2. left.
      * intros _. apply sending_whys. intros e He. apply W2. right. auto.
    + split; cbn; [intros e [?|?]; discriminate|]. intros ->. apply sending_whys. intros e He. apply W2; auto. right. auto.
    + split; cbn; auto. intros e [?|?]; discriminate.
    + split; auto.
    + split; cbn; [|discriminate]. intros e0 [?|[= ->]]; [discriminate|]. apply W1. auto.
Qed.
Lemma whys_reached x : rtc goes opened x -> whys x.
Proof.
  intros R. assert (G : forall a, rtc goes a x -> J a -> whys a -> whys x).
  { clear R. intros a R. induction R as [|a b c St _ IH]; auto. intros HJ Ha. apply IH; [destruct St; [eapply J_client|eapply J_step]; eauto|eapply whys_goes; eauto]. }
  apply (G opened); auto; [apply J_opened|]. split; cbn; auto. intros e [?|?]; discriminate.
Qed.
Lemma piece_errs p k e : piece_of p k -> k = Wrong e -> e = EInvalid \/ e = ESyntax.
Proof. intros H E. destruct H; inversion E; auto. Qed.
Lemma values_errs e : forall ks o, EvErr e ∈ values o ks -> Wrong e ∈ ks.
Proof.
  induction ks as [|k ks IH]; cbn; intros o H; [inversion H|]. destruct k as [d|n| | |e'].
  - right. destruct o as [[n got]|]; [destruct (_ =? _)|]; eauto; apply elem_of_cons in H as [[=]|H]; eauto.
  - right. eauto.
  - right. apply elem_of_cons in H as [[=]|H]; eauto.
  - right. apply elem_of_cons in H as [[=]|H]; eauto.
  - apply elem_of_cons in H as [[= ->]|H]; [left|right; eauto].
Qed.
Lemma reads_pieces s ks t k : reads_as s ks t -> k ∈ ks -> exists p, piece_of p k.
Proof. intros H. induction H as [|p k' s ks t Hp H IH]; intros Hk; [inversion Hk|]. apply elem_of_cons in Hk as [->|Hk]; eauto. Qed.
Lemma reads_errs s ks t e : reads_as s ks t -> EvErr e ∈ values None ks -> e = EInvalid \/ e = ESyntax.
Proof. intros H He. apply values_errs in He. destruct (reads_pieces _ _ _ _ H He) as [p Hp]. eapply piece_errs; eauto. Qed.
Lemma first_err p q e1 tl e2 tl2 : Forall is_data p -> p ++ EvErr e1 :: tl = q ++ EvErr e2 :: tl2 -> EvErr e1 ∈ q \/ (forall e, EvErr e ∉ q) /\ e1 = e2.
Proof.
  intros Hp. revert q. induction Hp as [|ev p Hev Hp IH]; intros [|ev' q] E; cbn in E.
  - injection E as -> ->. right. split; auto. intros e He. inversion He.
  - injection E as <- E. left. left.
  - injection E as -> _. destruct Hev.
  - injection E as <- E. destruct (IH _ E) as [H|[H1 H2]]; [left; right; auto|]. right. split; auto. intros e He. apply elem_of_cons in He as [<-|He]; [destruct Hev|eapply H1; eauto].
Qed.
Lemma first_err' p q e1 tl e : Forall is_data p -> p ++ EvErr e1 :: tl = q -> EvErr e ∈ q -> EvErr e1 ∈ q.
Proof. intros _ <- _. apply elem_of_app. right. left. Qed.
Theorem any_prompt x ks t : rtc goes opened x -> reads_as (concat (given x)) ks t -> rests x ->
  map fst (log x) = commands (values None ks) /\
  (hnd x = HIdle /\ ended x = None /\ t <> Fatal /\ (forall e, EvErr e ∉ values None ks) \/ exists e, hnd x = HGone e /\ (ended x <> None \/ EvErr e ∈ values None ks)).
Proof.
  intros R Hrd Hr. pose proof (J_goes x R) as HJ. pose proof (stands x Hr HJ) as Hst. pose proof (whys_reached x R) as HW. destruct HJ as (passed & Hh & Hd & Hp & Hc). destruct Hr as [Hdead _]. specialize (Hc Hdead).
  pose proof (events_of _ _ _ Hrd) as E1.
  destruct Hst as [(b & Hi & Hpar & Hend & He & Hsh)|(e & Hi)]; unfold clause, handed in *; rewrite Hi in *; rewrite app_nil_r in Hh.
  - rewrite Hpar in Hc. destruct Hc as [_ [Hb Hq]]. specialize (Hq [] (or_intror eq_refl)). rewrite !app_nil_r in Hq. rewrite E1, Pr_st in Hq by auto.
    assert (exists e tl, (match pstep b (unread x) with PS_crash => ([], Crashed) | PS_close evs => (evs, Closed) | PS_more evs b' st' => pre evs (Pr b' (concat st')) end).1 = EvErr e :: tl /\ (e = EEof \/ e = EUnexpectedEof)) as (e & tl & Et & Ee).
    { destruct (pstep_end _ _ Hend) as [->| ->]; cbn; eauto. }
    rewrite Et in Hq. split.
    + rewrite Hh. rewrite <- (commands_end _ t), Hq, commands_app by auto. cbn. rewrite app_nil_r. auto.
    + left. split; auto. split; auto. split.
      { intros ->. cbn in Hq. rewrite app_nil_r in Hq. assert (Hx : EvErr e ∈ values None ks) by (rewrite Hq; apply elem_of_app; right; left). destruct (reads_errs _ _ _ _ Hrd Hx) as [-> | ->], Ee; discriminate. }
      intros e' He'. assert (Hx : EvErr e ∈ values None ks).
      { destruct t as [| |]; cbn in Hq.
        - symmetry in Hq. destruct (first_err _ _ _ _ _ _ Hd Hq) as [?|[N _]]; auto. destruct (N e'); auto.
        - symmetry in Hq. destruct (first_err _ _ _ _ _ _ Hd Hq) as [?|[N _]]; auto. destruct (N e'); auto.
        - rewrite app_nil_r in Hq. rewrite Hq. apply elem_of_app. right. left. }
      destruct (reads_errs _ _ _ _ Hrd Hx) as [-> | ->], Ee; discriminate.
  - destruct Hc as [Hq Heof]. destruct (Hq [] (or_intror eq_refl)) as (e' & tl & E & Ee). rewrite app_nil_r, E1 in E. split.
    + rewrite Hh. rewrite <- (commands_end _ t), E, commands_app by auto. cbn. rewrite app_nil_r. auto.
    + right. exists e. split; auto. destruct (ended x) eqn:En; [left; discriminate|right]. specialize (Ee ltac:(discriminate)). subst e'.
      destruct HW as [HW _]. specialize (HW e (or_intror Hi)). rewrite En in HW. destruct t as [| |]; cbn in E.
      * symmetry in E. destruct (first_err _ _ _ _ _ _ Hd E) as [?|[_ ->]]; auto. discriminate HW.
      * symmetry in E. destruct (first_err _ _ _ _ _ _ Hd E) as [?|[_ ->]]; auto. discriminate HW.
      * rewrite app_nil_r in E. rewrite E. apply elem_of_app. right. left.
Qed.

(** ** Panics *)
Definition follows (x : link) (b : rbuf) : Prop := buf_ok b /\
  (b = empty_buf /\ concat (unread x) = [] /\ (shut x = true \/ ended x <> None) \/
   exists evs u2, (shut x = false -> u2 = []) /\ forall q, allowed x q -> parse_stream (given x ++ q) = pre evs (Pr b (concat (unread x ++ u2 ++ q)))).
Definition follow (x : link) : Prop := match par x with PRead b | PSend _ (Some b) => follows x b | _ => True end.
Lemma follow_sending g u f s h l d evs b : follows (mkLink g u f s (PRead b) h l d) b -> follow (mkLink g u f s (sending evs (Some b)) h l d).
Proof. destruct evs; cbn; auto. Qed.
Lemma follow_goes x y : follow x -> goes x y -> follow y.
Proof.
  intros F [St|St].
  - inversion St; subst.
    + assert (H : forall p0 b, follows (mkLink g u None false p0 h l false) b -> follows (mkLink (g ++ [piece]) (u ++ [piece]) None false p0 h l false) b).
      { intros p0 b [Hb [(-> & H1 & [H2|H2])|(evs & u2 & H1 & H2)]]; cbn in *; [discriminate|congruence|]. split; auto. right. exists evs, []. split; auto. intros q _. rewrite (H1 eq_refl) in H2. cbn.
        rewrite <- !app_assoc. cbn. apply (H2 (piece :: q)). left. auto. }
      unfold follow in *. cbn in *. destruct p as [|? [|]|]; auto.
    + assert (H : forall p0 b, follows (mkLink g u None false p0 h l false) b -> follows (mkLink g u (Some e) false p0 h l false) b).
      { intros p0 b [Hb [(-> & H1 & [H2|H2])|(evs & u2 & H1 & H2)]]; cbn in *; [discriminate|congruence|]. split; auto. right. exists evs, u2. split; auto. intros q _. apply H2. left. auto. }
      unfold follow in *. cbn in *. destruct p as [|? [|]|]; auto.
  - inversion St; subst; cbn in *.
    + apply follow_sending. destruct F as [Hb F]. pose proof (pstep_shrinks b u Hb) as Hsh. unfold read_next in H. cbn in H. destruct (hits_end b u) eqn:E.
      * assert (HN : (s = true \/ f <> None) -> follows (mkLink g [] f s (PRead empty_buf) h l false) empty_buf) by (intros HH; split; [apply empty_ok|left; auto]).
        destruct s; [injection H as <- <- <-; auto|]. destruct f as [[]|]; [|injection H as <- <- <-; apply HN; right; discriminate|discriminate].
        injection H as H. destruct (pstep_end _ _ E) as [E'|E']; rewrite E' in H; [discriminate|]. injection H as <- <- <-. apply HN; right; discriminate.
      * injection H as H. rewrite H in Hsh. destruct Hsh as [_ Hb']. split; auto. destruct F as [(-> & H1 & _)|(evs0 & u2 & H1 & H2)]; [cbn [unread] in H1; rewrite (hits_empty _ H1) in E; discriminate|].
        right. exists (evs0 ++ evs), u2. split; auto. intros q Hq. cbn in *. rewrite (H2 q Hq), Pr_st by auto. rewrite (pstep_add b u (u2 ++ q) E), H. rewrite pre_pre. auto.
    + apply K_close in H as ->. exact I.
    + exact F.
    + destruct nx as [b|]; [|destruct evs; exact I]. apply follow_sending. exact F.
    + destruct nx as [b|]; [|destruct evs; exact I]. apply follow_sending. exact F.
    + exact F.
    + exact F.
    + assert (HC : forall p0 b, follows (mkLink g u f s p0 (HClosing e) l false) b -> follows (mkLink g u' f true p0 (HGone e) l false) b).
      { intros p0 b [Hb F']. split; auto. destruct F' as [(-> & H1 & _)|(evs & u2 & H1 & H2)]; cbn in *.
        - left. split; auto. split; auto. rewrite H in H1. apply app_eq_nil in H1. apply H1.
        - right. exists evs, (u'' ++ u2). split; [discriminate|]. intros q [[_ ?]| ->]; [discriminate|]. rewrite (H2 [] (or_intror eq_refl)). rewrite !concat_app, H. cbn. rewrite <- !app_assoc. auto. }
      unfold follow in *. cbn in *. destruct p as [|? [|]|]; auto.
Qed.
Lemma follow_reached x : rtc goes opened x -> follow x.
Proof.
  intros R. assert (G : forall a, rtc goes a x -> follow a -> follow x).
  { clear R. intros a R. induction R as [|a b c St _ IH]; auto. intros Ha. apply IH. eapply follow_goes; eauto. }
  apply (G opened); auto. split; [apply empty_ok|]. right. exists [], []. split; auto. intros q _. cbn. rewrite pre_nil. apply parse_stream_Pr.
Qed.
Theorem parser_panics x b : rtc goes opened x -> par x = PRead b -> read_next x b = Some PS_crash -> (parse_stream (given x)).2 = Crashed.
Proof.
  intros R Hp Hc. pose proof (follow_reached x R) as F. unfold follow in F. rewrite Hp in F. destruct F as [Hb F]. unfold read_next in Hc. destruct (hits_end b (unread x)) eqn:E.
  - exfalso. destruct (shut x); [discriminate|]. destruct (ended x) as [[]|]; try discriminate. destruct (pstep_end _ _ E) as [E'|E']; rewrite E' in Hc; discriminate.
  - injection Hc as Hc. destruct F as [(-> & H1 & _)|(evs & u2 & H1 & H2)]; [rewrite (hits_empty _ H1) in E; discriminate|].
    specialize (H2 [] (or_intror eq_refl)). rewrite !app_nil_r in H2. rewrite H2, Pr_st by auto. rewrite (pstep_add b _ u2 E), Hc. reflexivity.
Qed.
Lemma to_command_none l : to_command l = None -> exists d, d ∈ l /\ bytes_data d = None.
Proof.
  induction l as [|d l IH]; cbn; [discriminate|]. destruct (bytes_data d) eqn:E; [|intros _; exists d; split; [left|auto]]. destruct (to_command l); [discriminate|]. intros _. destruct IH as (d' & H1 & H2); auto. exists d'. split; [right|]; auto.
Qed.
(** The elements of the arrays the parser sends are not arrays. *)
Definition flat (d : rdata) : Prop := forall l, d <> RArr l.
Lemma flat_nil d : flat d -> bytes_data d = None -> d = RNil.
Proof. destruct d; cbn; try discriminate; auto. intros H. destruct (H l). auto. Qed.
Lemma piece_flat p d : piece_of p (Elem d) -> flat d.
Proof. intros H. inversion H; intros l' E; discriminate. Qed.
Lemma values_flat l : forall ks o, (forall d, Elem d ∈ ks -> flat d) -> match o with Some (_, got) => Forall flat got | None => True end -> EvData (RArr (Some l)) ∈ values o ks -> Forall flat l.
Proof.
  induction ks as [|k ks IH]; cbn; intros o Hk Ho H; [inversion H|]. assert (Hk' : forall d, Elem d ∈ ks -> flat d) by (intros d Hd; apply Hk; right; auto). destruct k as [d|n| | |e'].
  - assert (Hd : flat d) by (apply Hk; left). destruct o as [[n got]|].
    + assert (Forall flat (got ++ [d])) by (apply Forall_app; auto). destruct (_ =? _); [apply elem_of_cons in H as [[= ->]|H]; auto; eapply IH; eauto; exact I|]. eapply IH; [exact Hk'| |exact H]. auto.
    + apply elem_of_cons in H as [[= <-]|H]; [destruct (Hd (Some l)); auto|]. eapply IH; eauto; exact I.
  - eapply IH; [exact Hk'| |exact H]. constructor.
  - apply elem_of_cons in H as [[= ->]|H]; [constructor|]. eapply IH; [exact Hk'| |exact H]. destruct o as [[]|]; auto.
  - apply elem_of_cons in H as [[=]|H]. eapply IH; [exact Hk'| |exact H]. destruct o as [[]|]; auto.
  - apply elem_of_cons in H as [[=]|H]. eapply IH; [exact Hk'| |exact H]. exact I.
Qed.
Lemma data_in x ks t d : reads_as (concat (given x)) ks t -> EvData d ∈ (parse_stream (given x)).1 -> EvData d ∈ values None ks.
Proof. intros H Hd. rewrite (events_of _ _ _ H) in Hd. apply elem_of_app in Hd as [Hd|Hd]; auto. destruct t; cbn in Hd; repeat (apply elem_of_cons in Hd as [[=]|Hd]); inversion Hd. Qed.
Theorem value_panics x ev evs nx ks t : rtc goes opened x -> dead x = false -> reads_as (concat (given x)) ks t -> par x = PSend (ev :: evs) nx -> hnd x = HIdle -> receive ev = None ->
  ev ∈ values None ks /\ fatal_value ev.
Proof.
  intros R Hl Hr Hp Hh Hv. destruct (J_goes x R) as (passed & _ & _ & _ & Hc). specialize (Hc Hl). unfold clause in Hc. rewrite Hh, Hp in Hc. destruct Hc as [_ Hc].
  destruct ev as [d|e]; [|discriminate]. destruct evs; [|destruct Hc]. destruct nx as [b|]; [|destruct Hc]. apply data_now in Hc.
  assert (Hin : EvData d ∈ values None ks) by (eapply data_in; [exact Hr|]; rewrite Hc; apply elem_of_app; left; apply elem_of_app; right; left).
  split; auto. destruct d as [| | | |[l|]|]; try discriminate Hv; cbn in Hv. right. exists l. split; auto. right.
  destruct (to_command l) eqn:E; [discriminate|]. destruct (to_command_none _ E) as (d & H1 & H2). assert (d = RNil) as <-; auto. apply flat_nil; auto.
  assert (Hf : Forall flat l). { eapply (values_flat l ks None); [|exact I|exact Hin]. intros d' Hd'. destruct (reads_pieces _ _ _ _ Hr Hd') as [p Hp']. eapply piece_flat; eauto. }
  rewrite Forall_forall in Hf. apply Hf, elem_of_list_In, H1.
Qed.
Lemma to_command_nil l : to_command l = Some [] -> l = [].
Proof. destruct l as [|d l]; auto. cbn. destruct (bytes_data d); [|discriminate]. destruct (to_command l); discriminate. Qed.
Theorem empty_handed x ks t : rtc goes opened x -> reads_as (concat (given x)) ks t -> [] ∈ handed x -> exists ev, ev ∈ values None ks /\ fatal_value ev.
Proof.
  intros R Hr Hh. destruct (J_goes x R) as (passed & E & _ & Hp & _). rewrite E in Hh. destruct (Hp []) as (tl & E1); [right; auto|]. rewrite app_nil_r in E1.
  unfold cmds_of in Hh. apply elem_of_list_In, in_concat in Hh as (cs & H1 & H2). apply in_map_iff in H1 as (ev & <- & H1). destruct ev as [d|]; [|destruct H2]. exists (EvData d).
  split; [eapply data_in; [exact Hr|]; rewrite E1; apply elem_of_app; left; apply elem_of_list_In; auto|]. destruct d as [| | | |[l|]|]; cbn in H2; try (destruct H2; fail); [|left; auto].
  right. exists l. split; auto. left. destruct (to_command l) as [c|] eqn:Ec; [|destruct H2]. destruct H2 as [->|[]]. apply to_command_nil. auto.
Qed.
