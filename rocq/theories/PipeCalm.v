(** Neither goroutine of a connection panics while the client sends commands in order. *)
From Verif Require Export PipeProofs.

Ltac dlv := destruct (deliver _ _) as [? ?] eqn:E; intros [= -> _ _]; apply deliver_one in E as [E|[? E]]; discriminate.
Lemma pstep_err b st e b' r : hits_end b st = false -> pstep b st = PS_more [EvErr e] b' r -> e <> EEof /\ e <> EUnexpectedEof.
Proof.
  intros H. unfold pstep. unfold hits_end in H.
  destruct (readline st b) as [m rr|e0 rr|]; try discriminate.
  - destruct (multi_line b); [dlv|]. destruct m as [|t m]; [discriminate|].
    destruct (code t =? 36)%N; [destruct (parse_bulk_header _ _) as [b1|]; [destruct (_ =? _); [dlv|discriminate]|]|].
    { intros [= <- _ _]. split; discriminate. }
    destruct (code t =? 42)%N; [destruct (parse_array_header _ _) as [b1|]; [repeat (destruct (_ =? _); try discriminate)|]|].
    { intros [= <- _ _]. split; discriminate. }
    unfold parse_single_line. destruct (body _) as [d|]; [|discriminate].
    destruct (code t =? 43)%N; [dlv|]. destruct (code t =? 45)%N; [dlv|]. destruct (code t =? 58)%N; [|dlv].
    destruct (parse_int d) as [n [o|]]; [|dlv]. intros [= <- _ _]. split; discriminate.
  - destruct e0; try discriminate; intros [= <- _ _]; split; discriminate.
Qed.
(** Before an error: the handler works, the parser reads or sends a command.  After it: all bytes have been consumed and no more come. *)
Definition early (x : link) : Prop :=
  (hnd x = HIdle \/ exists cmd, hnd x = HExec cmd) /\ match par x with PRead _ => True | PSend evs _ => exists d, evs = [EvData d] | PGone => False end.
Definition over (x : link) : Prop :=
  ended x <> None /\ concat (unread x) = [] /\
  match par x with PRead b => b = empty_buf | PSend evs nx => exists e, evs = [EvErr e] /\ (nx = None \/ nx = Some empty_buf) | PGone => True end.
Lemma hits_empty st : concat st = [] -> hits_end empty_buf st = true.
Proof.
  intros E. unfold hits_end, readline. cbn. assert (HE : read_bytes st = None).
  { induction st as [|ch st IH]; cbn; auto. cbn in E. apply app_eq_nil in E as [-> E]. cbn. rewrite (IH E). reflexivity. }
  rewrite HE. reflexivity.
Qed.
Lemma early_clause x passed : early x -> clause x passed -> shut x = false /\
  match par x with PRead b => data_clause x passed b | PSend [EvData d] (Some b) => data_clause x (passed ++ [EvData d]) b | _ => False end.
Proof.
  intros [He Hp] Hc. unfold clause in Hc.
  assert (Hc' : shut x = false /\ match par x with PRead b => data_clause x passed b | PSend [EvData d] (Some b) => data_clause x (passed ++ [EvData d]) b
     | PSend [EvErr e] _ => err_clause x passed e | _ => False end) by (destruct He as [He|[cmd He]]; rewrite He in Hc; exact Hc).
  destruct Hc' as [H1 H2]. split; auto. destruct (par x) as [b|evs nx|]; auto. destruct Hp as [d ->]. exact H2.
Qed.
(** What the parser delivers of a client's bytes: commands, then the end. *)
Lemma delivered cs q x passed tl : sends cs (concat (given x) ++ q) -> Forall is_data passed -> (parse_stream (given x)).1 = passed ++ tl ->
  exists cs1 cs2, passed = map cmd_event cs1 /\ ((exists c r, cs2 = c :: r /\ exists tl', tl = cmd_event c :: tl') \/ exists tl', tl = EvErr EEof :: tl' \/ tl = EvErr EUnexpectedEof :: tl').
Proof.
  intros Hs Hd E. destruct (truncated cs _ q (given x) Hs eq_refl) as (cs1 & cs2 & _ & _ & _ & _ & _ & _ & evs & E1 & He). rewrite E1 in E. cbn in E. symmetry in E.
  destruct (data_prefix _ _ _ _ Hd E) as (a & b & -> & -> & ->); [destruct He as [->| ->]; eauto|]. exists a, b. split; auto. destruct b as [|c b]; cbn; [|left; eauto].
  right. destruct He as [->| ->]; eauto.
Qed.
Lemma allowed_nil x : allowed x []. Proof. right. reflexivity. Qed.
Lemma data_now x passed b : data_clause x passed b -> (parse_stream (given x)).1 = passed ++ (Pr b (concat (unread x))).1.
Proof. intros [_ H]. specialize (H [] (allowed_nil x)). rewrite !app_nil_r in H. exact H. Qed.
Lemma early_read x b cs q : early x -> J x -> dead x = false -> sends cs (concat (given x) ++ q) -> par x = PRead b ->
  (hits_end b (unread x) = true /\ (read_next x b = None \/ ended x <> None /\ (read_next x b = Some (PS_close [EvErr EEof]) \/ exists e, read_next x b = Some (PS_more [EvErr e] empty_buf []))))
  \/ (hits_end b (unread x) = false /\ exists evs b' r, read_next x b = Some (PS_more evs b' r) /\ (evs = [] \/ exists d, evs = [EvData d])).
Proof.
  intros He (passed & _ & Hd & _ & Hc) Hl Hs Hb. specialize (Hc Hl). apply early_clause in Hc as [Hsh Hc]; auto. rewrite Hb in Hc. unfold read_next. destruct (hits_end b (unread x)) eqn:Hh.
  - left. split; auto. rewrite Hsh. destruct (ended x) as [[]|]; auto; right; (split; [discriminate|]); [|eauto].
    destruct (pstep_end _ _ Hh) as [->| ->]; eauto.
  - right. split; auto. pose proof (data_now _ _ _ Hc) as E. destruct Hc as [Hok _]. rewrite (Pr_st b (unread x) Hok) in E.
    pose proof (pstep_one _ _ Hh) as H1. destruct (pstep b (unread x)) as [evs b' r|evs|] eqn:Ep; [|contradiction|].
    + exists evs, b', r. split; auto. destruct H1 as [H1|[H1|(e & _ & ->)]]; auto. exfalso. destruct (pstep_err _ _ _ _ _ Hh Ep) as [N1 N2].
      destruct (delivered cs q x _ _ Hs Hd E) as (cs1 & cs2 & _ & [(c & r' & _ & tl & Ht)|(tl & [Ht|Ht])]); unfold pre, cmd_event in Ht; cbn [fst app] in Ht; congruence.
    + exfalso. destruct (delivered cs q x _ _ Hs Hd E) as (cs1 & cs2 & _ & [(c & r' & _ & tl & Ht)|(tl & [Ht|Ht])]); unfold pre, cmd_event in Ht; cbn [fst app] in Ht; congruence.
Qed.
Lemma over_read x b : over x -> par x = PRead b -> read_next x b = Some (PS_close [EvErr EEof]) \/ exists e, read_next x b = Some (PS_more [EvErr e] empty_buf []).
Proof.
  intros (H1 & H2 & H3) Hb. rewrite Hb in H3. subst b. unfold read_next. rewrite (hits_empty _ H2). destruct (shut x); [eauto|]. destruct (ended x) as [[]|]; [|eauto|congruence].
  destruct (pstep_end _ _ (hits_empty _ H2)) as [->| ->]; eauto.
Qed.
Lemma given_grows x y : goes x y -> exists more, concat (given y) = concat (given x) ++ more.
Proof.
  intros [St|St]; inversion St; subst; cbn; try (exists []; rewrite app_nil_r; reflexivity). exists piece. rewrite concat_app. cbn. rewrite app_nil_r. reflexivity.
Qed.
Lemma calm_step x y cs q : J x -> goes x y -> sends cs (concat (given x) ++ q) -> dead x = false -> dead y = false -> early x \/ over x -> early y \/ over y.
Proof.
  intros HJ St Hs Hx Hy HI. destruct St as [St|St].
  - inversion St; subst; (destruct HI as [HI|(H1 & H2 & H3)]; [left; exact HI|]); cbn in H1; congruence.
  - inversion St; subst; cbn in Hx, Hy; try discriminate.
    + destruct HI as [HI|HI].
      * destruct (early_read _ _ _ _ HI HJ eq_refl Hs eq_refl) as [(Hh & [E|(He & [E|(e & E)])])|(Hh & evs' & b2 & r & E & Hev)]; rewrite H in E; try discriminate.
        -- injection E as -> -> ->. right. split; auto. split; auto. cbn. eauto.
        -- injection E as -> -> ->. left. split; [apply HI|]. destruct Hev as [->|[d ->]]; cbn; eauto.
      * destruct (over_read _ _ HI eq_refl) as [E|[e E]]; rewrite H in E; [discriminate|]. injection E as -> -> ->. right. split; [apply HI|]. split; auto. cbn. eauto.
    + assert (evs = [EvErr EEof]) as -> by (eapply K_close; eauto). destruct HI as [HI|HI].
      * destruct (early_read _ _ _ _ HI HJ eq_refl Hs eq_refl) as [(Hh & [E|(He & [E|(e & E)])])|(Hh & evs' & b2 & r & E & Hev)]; rewrite H in E; try discriminate.
        right. split; auto. split; auto. cbn. eauto.
      * right. split; [apply HI|]. split; auto. cbn. eauto.
    + destruct HI as [HI|(H1 & H2 & e & He & Hnx)].
      * left. destruct HJ as (passed & _ & _ & _ & Hc). specialize (Hc eq_refl). destruct (early_clause _ _ HI Hc) as [_ Hc']. destruct HI as [_ [d E]]. injection E as -> ->. cbn in Hc'.
        destruct nx as [b|]; [|contradiction]. split; [|cbn; exact I]. cbn in H. cbn [hnd]. destruct d; try (injection H as <-; auto). destruct (to_command _); [|discriminate]. injection H as <-. eauto.
      * injection He as -> ->. right. split; auto. split; auto. cbn. destruct Hnx as [->| ->]; cbn; auto.
    + destruct HI as [[_ HI]|HI]; [left; split; auto; left; reflexivity|right; exact HI].
    + destruct HI as [[[E|[? E]] _]|(H1 & H2 & H3)]; try discriminate E. right. split; auto. split; auto. cbn in *. rewrite H in H2. apply app_eq_nil in H2 as [H2 _]. exact H2.
Qed.
Lemma dead_stays x y : goes x y -> dead y = false -> dead x = false.
Proof. intros [St|St]; inversion St; reflexivity. Qed.
Lemma rtc_back (Q : link -> Prop) : (forall x y, goes x y -> Q y -> Q x) -> forall x y, rtc goes x y -> Q y -> Q x.
Proof. intros H x y R. induction R; eauto. Qed.
Lemma calm_reached x cs q : rtc goes opened x -> sends cs (concat (given x) ++ q) -> dead x = false -> early x \/ over x.
Proof.
  intros R Hs Hl. assert (G : forall a, rtc goes a x -> J a -> early a \/ over a -> early x \/ over x).
  { clear R. intros a R. induction R as [|a b c St R IH]; auto. intros HJ HI. apply IH; auto.
    - destruct St; [eapply J_client|eapply J_step]; eauto.
    - assert (Hb : dead b = false) by (revert Hl; apply (rtc_back (fun z => dead z = false)) with (1 := dead_stays) (2 := R)).
      assert (Hg : exists more, concat (given c) = concat (given a) ++ more).
      { destruct (given_grows _ _ St) as [m1 E1]. assert (HR : exists m, concat (given c) = concat (given b) ++ m).
        { clear -R. induction R as [|a b c St R [m IH]]; [exists []; rewrite app_nil_r; auto|]. destruct (given_grows _ _ St) as [m1 E1]. exists (m1 ++ m). rewrite IH, E1, app_assoc. auto. }
        destruct HR as [m E]. exists (m1 ++ m). rewrite E, E1, app_assoc. auto. }
      destruct Hg as [more Hg]. rewrite Hg, <- app_assoc in Hs. eapply calm_step; [exact HJ|exact St|exact Hs| |exact Hb|exact HI]. eapply dead_stays; eauto. }
  apply (G opened); auto; [apply J_opened|]. left. split; [left; reflexivity|exact I].
Qed.
(** The parser does not panic, the handler does not panic on what it receives, and no command is empty. *)
Theorem pipe_calm x cs q : rtc goes opened x -> sends cs (concat (given x) ++ q) -> dead x = false ->
  (forall b, par x = PRead b -> read_next x b <> Some PS_crash) /\
  (forall ev evs nx, par x = PSend (ev :: evs) nx -> hnd x = HIdle -> receive ev <> None) /\ hnd x <> HExec [].
Proof.
  intros R Hs Hl. pose proof (calm_reached x cs q R Hs Hl) as HI. pose proof (J_goes x R) as HJ. split; [|split].
  - intros b Hb E. destruct HI as [HI|HI].
    + destruct (early_read _ _ _ _ HI HJ Hl Hs Hb) as [(Hh & [E'|(He & [E'|(e & E')])])|(Hh & evs' & b2 & r & E' & Hev)]; congruence.
    + destruct (over_read _ _ HI Hb) as [E'|[e E']]; congruence.
  - intros ev evs nx Hp Hh E. destruct HI as [HI|(_ & _ & HI)]; [|rewrite Hp in HI; destruct HI as (e & [= -> _] & _); discriminate].
    destruct HJ as (passed & _ & Hd & _ & Hc). specialize (Hc Hl). destruct (early_clause _ _ HI Hc) as [_ Hc']. destruct HI as [_ HI]. rewrite Hp in Hc', HI. destruct HI as [d [= -> ->]].
    destruct nx as [b|]; [|contradiction]. pose proof (data_now _ _ _ Hc') as Eq.
    destruct (delivered cs q x (passed ++ [EvData d]) _ Hs ltac:(apply Forall_app; repeat constructor; auto) Eq) as (cs1 & cs2 & Ep & _).
    assert (exists c, EvData d = cmd_event c) as [c Ed].
    { assert (HF : Forall (fun e => exists c, e = cmd_event c) (map cmd_event cs1)) by (apply Forall_fmap, Forall_forall; intros c _; cbn; eauto).
      rewrite <- Ep in HF. apply Forall_app in HF as [_ HF]. inversion HF; auto. }
    rewrite Ed in E. cbn in E. pose proof (cmd_event_command c) as Ec. rewrite Ec in E. discriminate.
  - intros Hh. destruct (pipe_order cs q x R Hs) as [rest ->].
    assert (HF : forall cs s, sends cs s -> Forall (fun c : command => c <> []) cs) by (induction 1 as [|? ? ? ? Hc]; constructor; auto; inversion Hc; auto).
    apply HF in Hs. apply Forall_app in Hs as [Hs _]. unfold handed in Hs. rewrite Hh in Hs. apply Forall_app in Hs as [_ Hs]. inversion Hs; congruence.
Qed.
