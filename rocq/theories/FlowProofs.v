(** Proofs about replies on their way out. *)
From Verif Require Export SpecFlow WorldMain.

Section WithParams.
Context {P : Setup}.

Lemma flows_world T x y : flows T x y -> rtc (happens T) x.1 y.1.
Proof. intros [H|H]; destruct H; cbn; try apply rtc_refl; apply rtc_once; [left|right]; auto. Qed.
Lemma flows_worlds T x y : rtc (flows T) x y -> rtc (happens T) x.1 y.1.
Proof. induction 1 as [|x y z H _ IH]; [apply rtc_refl|]. etransitivity; [eapply flows_world; eauto|exact IH]. Qed.

(** ** One connection *)
Record oinv (p : peer) (o : out) : Prop := mkOinv {
  oi_ok : broken o = false -> written p = arrived o ++ waiting o;
  oi_cut : broken o = true -> waiting o = [] /\ exists rest, written p = arrived o ++ rest;
  oi_wait : waiting o <> [] -> stg p = Served /\ hnd (lnk p) = HIdle /\ runs_on p = None /\
    exists lg cmd r f w, log (lnk p) = lg ++ [(cmd, r)] /\ reply_bytes r = Some f /\ f = w ++ waiting o }.
Lemma sending_shorter evs nx ev : sending evs nx <> PSend (ev :: evs) nx.
Proof.
  destruct evs as [|e evs]; cbn; [destruct nx; discriminate|]. intros E. injection E as E1 E2. apply (f_equal length) in E2. cbn in E2. lia.
Qed.
(** A handler inside conn.Write does nothing. *)
Lemma stays p p' : pmove p p' -> pmove (without_hnd p) (without_hnd p') -> hnd (lnk p) = HIdle -> runs_on p = None ->
  hnd (lnk p') = HIdle /\ runs_on p' = None /\ log (lnk p') = log (lnk p) /\ written p' = written p /\ (stg p = Served -> stg p' = Served).
Proof.
  intros M W Hh Hr. destruct M as [p|st st' l o w Hs|st l l' o w Hc|l l' o w Hl Hlog Hd|l w cmd j Hx|l o w cmd r bs Hx]; cbn in *; try congruence; auto.
  - repeat split; auto. contradiction.
  - destruct Hc; cbn in *; auto.
  - destruct Hl as [| | |g u f s ev evs nx lg h' Hrc|g u f s ev evs nx lg Hrc| | |]; cbn in *; try discriminate; auto.
    exfalso. inversion W as [q E|? ? ? ? ? Hst|? ? ? ? ? Hc|? ? ? ? Hl|? ? ? ? Hx|? ? ? ? ? ? Hx]; subst; cbn in *; try discriminate.
    + match goal with H : PSend _ _ = sending _ _ |- _ => symmetry in H; exact (sending_shorter _ _ _ H) end.
    + congruence.
    + inversion Hc; subst; match goal with H : PSend _ _ = sending _ _ |- _ => symmetry in H; exact (sending_shorter _ _ _ H) end.
    + inversion Hl; subst.
Qed.
Lemma write_nil o : write o [] = o.
Proof. destruct o as [w a b]. unfold write. cbn. destruct b; auto. rewrite app_nil_r. auto. Qed.
Lemma oinv_move p p' o : pinv p -> oinv p o -> pmove p p' -> (waiting o <> [] -> pmove (without_hnd p) (without_hnd p')) ->
  oinv p' (write o (drop (length (written p)) (written p'))).
Proof.
  intros I [O1 O2 O3] M W. destruct (waiting o) as [|c ws] eqn:Ew.
  - assert (E : (written p' = written p) \/ (exists cmd r bs lg, written p' = written p ++ bs /\ reply_bytes r = Some bs /\ stg p' = Served /\ hnd (lnk p') = HIdle /\ runs_on p' = None /\ log (lnk p') = lg ++ [(cmd, r)])).
    { destruct M; cbn; auto. right. exists cmd, r, bs, (log l). auto 10. }
    destruct E as [E|(cmd & r & bs & lg & E & Hr & E1 & E2 & E3 & E4)].
    + rewrite E, drop_all, write_nil by auto. constructor; rewrite ?E, ?Ew; auto; try congruence.
    + rewrite E, drop_app. destruct o as [w a b]. cbn in *. subst w. unfold write. cbn. destruct b; constructor; cbn; try discriminate; try congruence.
      * intros _. destruct (O2 eq_refl) as [_ [rest E5]]. split; auto. exists (rest ++ bs). rewrite E, E5, app_assoc. auto.
      * intros _. rewrite E, (O1 eq_refl), app_nil_r. auto.
      * intros _. split; auto. split; auto. split; auto. exists lg, cmd, r, bs, []. auto.
  - destruct (O3 ltac:(discriminate)) as (S1 & S2 & S3 & lg & cmd & r & f & w & S4 & S5 & S6). destruct (stays _ _ M (W ltac:(discriminate)) S2 S3) as (T1 & T2 & T3 & T4 & T5).
    rewrite T4, drop_all, write_nil by auto. constructor; rewrite ?T4, ?Ew; auto. intros _. split; auto. split; auto. split; auto. exists lg, cmd, r, f, w. rewrite T3. auto.
Qed.
Lemma oinv_outside p p' o : oinv p o -> pmove p p' -> written p' = written p -> log (lnk p') = log (lnk p) -> hnd (lnk p') = hnd (lnk p) -> runs_on p' = runs_on p -> (stg p = Served -> stg p' = Served) -> oinv p' o.
Proof.
  intros [O1 O2 O3] M E1 E2 E3 E4 E5. constructor; rewrite ?E1; auto. intros H. destruct (O3 H) as (S1 & S2 & S3 & S4). rewrite E2, E3, E4. auto.
Qed.
(** ** All connections *)
Definition oinvs (x : flow) : Prop := length x.2 = length (peers x.1) /\ forall i p o, peers x.1 !! i = Some p -> x.2 !! i = Some o -> oinv p o.
Lemma writing_iff os i o : os !! i = Some o -> writing os i = true <-> waiting o <> [].
Proof. unfold writing. intros ->. destruct o as [[|c w] a b]; cbn; split; congruence. Qed.
Lemma oinvs_boot sl ds n : oinvs (fboot sl ds n).
Proof.
  split; cbn; [rewrite !replicate_length; auto|]. intros i p o Hp Ho. apply lookup_replicate in Hp as [-> _]. apply lookup_replicate in Ho as [-> _].
  constructor; cbn; auto; congruence.
Qed.
Lemma oinvs_step T x y : all_peers x.1 -> oinvs x -> flows T x y -> oinvs y.
Proof.
  intros A [L O] H. destruct H as [H|H]; destruct H; cbn [fst snd] in *.
  - assert (Hh : happens T x y) by (left; auto). destruct (happens_pmove _ _ _ Hh) as [L' M]. split; cbn; [congruence|]. intros i p' o Hp' Ho.
    destruct (lookup_lt_is_Some_2 (peers x) i) as [p Hp]; [rewrite <- L'; eapply lookup_lt_Some; eauto|]. specialize (O _ _ _ Hp Ho). pose proof (M _ _ _ Hp Hp') as Mv.
    assert (E : p' = p \/ (written p' = written p /\ log (lnk p') = log (lnk p) /\ hnd (lnk p') = hnd (lnk p) /\ runs_on p' = runs_on p /\ (stg p = Served -> stg p' = Served))).
    { destruct H; cbn in Hp, Hp'; try (left; congruence); destruct (lookup_ins _ _ _ _ _ _ _ H Hp Hp') as [(-> & -> & ->)|[_ ->]]; auto; right; cbn; [|inversion H1; subst; cbn]; repeat split; auto. discriminate. }
    destruct E as [->|(E1 & E2 & E3 & E4 & E5)]; auto. eapply oinv_outside; eauto.
  - split; cbn; [rewrite insert_length; auto|]. intros j p o Hp Ho. destruct (decide (i = j)) as [->|Hne].
    + rewrite list_lookup_insert in Ho by (eapply lookup_lt_Some; eauto). injection Ho as <-. destruct (O _ _ _ Hp H0) as [O1 O2 O3]. cbn in *. constructor; cbn; try discriminate.
      * intros _. rewrite (O1 eq_refl), app_assoc. auto.
      * intros Hw. destruct (O3 ltac:(destruct w1; cbn; congruence)) as (S1 & S2 & S3 & lg & cmd & r & f & w & S4 & S5 & S6). repeat split; auto. exists lg, cmd, r, f, (w ++ w1). rewrite <- app_assoc. auto.
    + rewrite list_lookup_insert_ne in Ho by auto. eauto.
  - split; cbn; [rewrite insert_length; auto|]. intros j p o Hp Ho. destruct (decide (i = j)) as [->|Hne].
    + rewrite list_lookup_insert in Ho by (eapply lookup_lt_Some; eauto). injection Ho as <-. destruct (O _ _ _ Hp H0) as [O1 O2 O3]. cbn in *. constructor; cbn; try discriminate; try congruence.
      intros _. split; auto. exists w. auto.
    + rewrite list_lookup_insert_ne in Ho by auto. eauto.
  - assert (H1 : happens T x y) by (right; auto). assert (H2 : happens T (unhandled os x) (unhandled os y)) by (right; auto).
    destruct (happens_pmove _ _ _ H1) as [L1 M1]. destruct (happens_pmove _ _ _ H2) as [_ M2]. split; [cbn; unfold write_all; rewrite imap_length; congruence|].
    cbn [fst snd]. intros i p' o' Hp' Ho. destruct (lookup_lt_is_Some_2 (peers x) i) as [p Hp]; [rewrite <- L1; eapply lookup_lt_Some; eauto|].
    unfold write_all in Ho. rewrite list_lookup_imap in Ho. destruct (os !! i) as [o|] eqn:Eo; [|discriminate]. cbn in Ho. injection Ho as <-. unfold written_at. rewrite Hp, Hp'.
    apply oinv_move; eauto. intros Hw. apply (M2 i); cbn; rewrite list_lookup_imap; [rewrite Hp|rewrite Hp']; cbn; rewrite (proj2 (writing_iff _ _ _ Eo) Hw); reflexivity.
Qed.
Lemma flow_inv T sl ds n x : rtc (flows T) (fboot sl ds n) x -> all_peers x.1 /\ oinvs x.
Proof.
  intros R. assert (G : forall a, rtc (flows T) a x -> all_peers a.1 -> oinvs a -> all_peers x.1 /\ oinvs x).
  { clear R. induction 1 as [a|a b c H _ IH]; auto. intros A O. apply IH; [|eapply oinvs_step; eauto]. eapply all_peers_rtc; [eapply flows_world; eauto|auto]. }
  apply (G _ R); [apply all_peers_boot|apply oinvs_boot].
Qed.

(** ** What clients get *)
Theorem flow_received T sl ds n x : rtc (flows T) (fboot sl ds n) x -> rtc (happens T) (boot sl ds n) x.1 /\
  forall i p o, peers x.1 !! i = Some p -> x.2 !! i = Some o -> exists bs, replied (log (lnk p)) bs /\
    (broken o = false -> bs = arrived o ++ waiting o) /\ (broken o = true -> exists rest, bs = arrived o ++ rest).
Proof.
  intros R. split; [apply (flows_worlds _ _ _ R)|]. destruct (flow_inv _ _ _ _ _ R) as [A [L O]]. intros i p o Hp Ho. destruct (O _ _ _ Hp Ho) as [O1 O2 O3].
  exists (written p). split; [apply (pv_wire _ (A _ _ Hp))|]. split; auto. intros H. apply O2. auto.
Qed.
Theorem flow_one_reply T sl ds n x i p o : rtc (flows T) (fboot sl ds n) x -> peers x.1 !! i = Some p -> x.2 !! i = Some o -> waiting o <> [] ->
  runs_on p = None /\ hnd (lnk p) = HIdle /\ exists lg cmd r f w, log (lnk p) = lg ++ [(cmd, r)] /\ reply_bytes r = Some f /\ f = w ++ waiting o.
Proof. intros R Hp Ho Hw. destruct (flow_inv _ _ _ _ _ R) as [_ [L O]]. destruct (O _ _ _ Hp Ho) as [_ _ O3]. destruct (O3 Hw) as (_ & ? & ? & ?). auto. Qed.
Lemma writing_stays T x os y os' i p o : oinvs (x, os) -> fgo T (x, os) (y, os') -> peers x !! i = Some p -> os !! i = Some o -> waiting o <> [] ->
  exists p', peers y !! i = Some p' /\ os' !! i = Some o /\ log (lnk p') = log (lnk p) /\ hnd (lnk p') = hnd (lnk p) /\ runs_on p' = runs_on p.
Proof.
  intros [L O] H Hp Ho Hw. inversion H as [? ? ? H1 H2]; subst.
  assert (G1 : happens T x y) by (right; auto). assert (G2 : happens T (unhandled os x) (unhandled os y)) by (right; auto).
  destruct (happens_pmove _ _ _ G1) as [L1 M1]. destruct (happens_pmove _ _ _ G2) as [_ M2].
  destruct (lookup_lt_is_Some_2 (peers y) i) as [p' Hp']; [rewrite L1; eapply lookup_lt_Some; eauto|]. exists p'. split; auto.
  destruct (O _ _ _ Hp Ho) as [_ _ O3]. destruct (O3 Hw) as (_ & S2 & S3 & _). cbn in Hp.
  destruct (stays p p' (M1 _ _ _ Hp Hp')) as (T1 & T2 & T3 & T4 & _); auto.
  { apply (M2 i); cbn; rewrite list_lookup_imap; [rewrite Hp|rewrite Hp']; cbn; rewrite (proj2 (writing_iff _ _ _ Ho) Hw); reflexivity. }
  split; [|split; [auto|split; congruence]]. unfold write_all. rewrite list_lookup_imap, Ho. cbn. unfold written_at. rewrite Hp, Hp', T4, drop_all, write_nil by auto. auto.
Qed.

(** ** Rest *)
Lemma un_ins os sl cs i p ps sg f : writing os i = false ->
  unhandled os (mkW sl cs (<[i := p]> ps) sg f) = mkW sl cs (<[i := p]> (peers (unhandled os (mkW sl cs ps sg f)))) sg f.
Proof. intros H. unfold unhandled. cbn. rewrite imap_ins, H. auto. Qed.
Lemma un_look os x i p : peers x !! i = Some p -> writing os i = false -> peers (unhandled os x) !! i = Some p.
Proof. intros H Hw. cbn. rewrite list_lookup_imap, H. cbn. rewrite Hw. auto. Qed.
Ltac both := match goal with Hn : forall y, ~ fadvance _ _ y |- _ => eapply Hn; split; [apply F_go|cbn [fst snd]] end.
Lemma quiet_net T sl ds n x os : rtc (flows T) (fboot sl ds n) (x, os) -> now_is x = Running -> (forall y, ~ fadvance T (x, os) y) -> forall y, ~ nadvance T (net (sofar x) x) y.
Proof.
  intros R Hrun Hn y [St Hne]. destruct (flow_inv _ _ _ _ _ R) as [A O]. cbn [fst] in A.
  assert (Hb : forall i p, peers x !! i = Some p -> forall cmd, hnd (lnk p) = HExec cmd -> writing os i = false).
  { intros i p Hp cmd Hc. destruct (writing os i) eqn:E; auto. unfold writing in E. destruct (os !! i) as [o|] eqn:Eo; [|discriminate].
    destruct O as [_ O]. destruct (O _ _ _ Hp Eo) as [_ _ O3]. destruct o as [[|c w] a b]; try discriminate. destruct (O3 ltac:(discriminate)) as (_ & S2 & _). congruence. }
  remember (net (sofar x) x) as nx eqn:Ex. destruct St as [sl' cs ss i h cmd rest Hi Hsel|sl' cs ss i h cmd rest c Hi Hsel Hc|sl' cs ss j c c' Hj Hs|sl' cs ss i h cmd j rest c r Hi Hj Ht].
  - assert (Hi' : sess (net (sofar x) x) !! i = Some (mkConn h None (cmd :: rest))) by (rewrite <- Ex; exact Hi). destruct (conn_at _ _ _ _ Hi') as (p & Hp & E).
    rewrite (conn_sofar _ _ _ Hp (A _ _ Hp)) in E. injection E as -> Eb Et. destruct (A _ _ Hp) as [_ _ _ _ Hst]. pose proof (Hb _ _ Hp) as Hw. destruct x as [xs xc xp xg xf]. cbn [peers wsel wcores now_is] in *. subst xf. injection Ex as -> -> _.
    destruct p as [st l o w]. cbn in *. destruct o as [j|]; [discriminate|]. destruct (hnd l) eqn:Eh; try discriminate. injection Et as <- ->. destruct Hst as [->|[? _]]; [|discriminate].
    specialize (Hw _ eq_refl). destruct (select_encodes (mkMgr xs (map cdb xc)) cmd) as [bs Hbs]. both.
    + eapply W_select; eauto.
    + rewrite un_ins by auto. eapply W_select; eauto. apply (un_look os (mkW xs xc xp xg Running)); auto.
    + left. cbn. eapply insert_differs; eauto. intros E. injection E as E _. apply (f_equal hnd) in E. cbn in E. congruence.
  - assert (Hi' : sess (net (sofar x) x) !! i = Some (mkConn h None (cmd :: rest))) by (rewrite <- Ex; exact Hi). destruct (conn_at _ _ _ _ Hi') as (p & Hp & E).
    rewrite (conn_sofar _ _ _ Hp (A _ _ Hp)) in E. injection E as -> Eb Et. destruct (A _ _ Hp) as [_ _ _ _ Hst]. pose proof (Hb _ _ Hp) as Hw. destruct x as [xs xc xp xg xf]. cbn [peers wsel wcores now_is] in *. subst xf. injection Ex as -> -> _.
    destruct p as [st l o w]. cbn in *. destruct o as [j|]; [discriminate|]. destruct (hnd l) eqn:Eh; try discriminate. injection Et as <- ->. destruct Hst as [->|[? _]]; [|discriminate].
    specialize (Hw _ eq_refl). destruct cmd as [|a cmd].
    + both; [eapply W_empty_panic; eauto|eapply W_empty_panic; [apply (un_look os (mkW xs xc xp xg Running)); eauto|auto]|]. right. right. cbn. discriminate.
    + both; [eapply W_start; eauto; discriminate| |].
      * rewrite un_ins by auto. eapply W_start; eauto; try discriminate. apply (un_look os (mkW xs xc xp xg Running)); auto.
      * left. cbn. eapply insert_differs; [eauto|discriminate].
  - destruct Hne as [Hne|Hne]; [cbn in Hne; congruence|]. destruct x as [xs xc xp xg xf]. cbn in *. subst xf. injection Ex as -> -> _.
    both; [eapply W_run; eauto|eapply W_run; eauto|]. auto.
  - assert (Hi' : sess (net (sofar x) x) !! i = Some (mkConn h (Some (cmd, j)) rest)) by (rewrite <- Ex; exact Hi). destruct (conn_at _ _ _ _ Hi') as (p & Hp & E).
    rewrite (conn_sofar _ _ _ Hp (A _ _ Hp)) in E. injection E as -> Eb Et. destruct (A _ _ Hp) as [_ _ _ _ Hst]. pose proof (Hb _ _ Hp) as Hw. destruct x as [xs xc xp xg xf]. cbn [peers wsel wcores now_is] in *. subst xf. injection Ex as -> -> _.
    destruct p as [st l o w]. unfold busy_of in Eb. cbn in *. destruct o as [j'|]; [|discriminate]. destruct (hnd l) eqn:Eh; try discriminate. injection Eb as <- <-. destruct Hst as [->|[? _]]; [|discriminate].
    specialize (Hw _ eq_refl). destruct (reply_bytes r) as [bs|] eqn:Er.
    + both; [eapply W_reply; eauto| |].
      * rewrite un_ins by auto. eapply W_reply; eauto. apply (un_look os (mkW xs xc xp xg Running)); auto.
      * left. cbn. eapply insert_differs; [eauto|discriminate].
    + both; [eapply W_reply_panic; eauto|eapply W_reply_panic; eauto; apply (un_look os (mkW xs xc xp xg Running)); eauto|]. right. right. cbn. discriminate.
Qed.
Lemma quiet_link T x os i l o w : (forall y, ~ fadvance T (x, os) y) -> now_is x = Running -> peers x !! i = Some (mkPeer Served l o w) -> pinv (mkPeer Served l o w) -> writing os i = false ->
  (forall cmd, hnd l <> HExec cmd) -> rests l.
Proof.
  intros Hn Hrun Hi [I1 I2 I3 I4 I5] Hw Hx. split; [exact I2|]. intros l' St. cbn in *. destruct x as [xs xc xp xg xf]. cbn in *. subst xf.
  pose proof (lstep_differs _ _ I1 St) as Hd. pose proof (un_look os (mkW xs xc xp xg Running) i _ Hi Hw) as Hu.
  assert (Hl : log l' = log l -> dead l' = false -> False).
  { intros H1 H2. both; [eapply W_link; eauto|rewrite un_ins by auto; eapply W_link; eauto|]. left. cbn. eapply insert_differs; eauto. congruence. }
  assert (Hp : wstep T (mkW xs xc xp xg Running) (mkW xs xc xp xg Panicked) -> wstep T (unhandled os (mkW xs xc xp xg Running)) (unhandled os (mkW xs xc xp xg Panicked)) -> False).
  { intros H H'. both; [exact H|exact H'|]. right. right. cbn. discriminate. }
  inversion St; subst; cbn in *; auto.
  - apply Hp; eapply W_parser_panic; eauto.
  - apply Hp; eapply W_value_panic; eauto.
  - eapply Hx; reflexivity.
  - eapply Hx; reflexivity.
Qed.
Lemma quiet_links (T : Z -> Prop) now sl ds n x os : T now -> (sl < length ds)%nat -> rtc (flows T) (fboot sl ds n) (x, os) -> now_is x = Running -> (forall y, ~ fadvance T (x, os) y) ->
  signal x = false /\
  (spins x \/ forall i p, peers x !! i = Some p -> stg p <> Away -> stg p = Served /\ (writing os i = false -> rests (lnk p))).
Proof.
  intros Hnow Hsl R Hrun Hn. pose proof (flows_worlds _ _ _ R) as R'. cbn [fst fboot] in R'. destruct (net_reached _ _ _ _ _ R') as [A RN]. pose proof (quiet_net _ _ _ _ _ _ R Hrun Hn) as HN. destruct (flow_inv _ _ _ _ _ R) as [_ O]. split.
  { destruct x as [xs xc xp xg xf]. cbn in *. subst xf. destruct xg; auto. exfalso. both; [apply W_exit|apply W_exit|]. right. right. cbn. discriminate. }
  assert (Hst : forall i p, peers x !! i = Some p -> stg p <> Served -> writing os i = false).
  { intros i p Hp Hs. destruct (writing os i) eqn:E; auto. unfold writing in E. destruct (os !! i) as [o|] eqn:Eo; [|discriminate].
    destruct O as [_ O]. destruct (O _ _ _ Hp Eo) as [_ _ O3]. destruct o as [[|c w] a b]; try discriminate. destruct (O3 ltac:(discriminate)) as (S1 & _). contradiction. }
  destruct (server_progress T now sl ds _ _ Hnow Hsl RN HN) as [Hfin|(j & c & t & Hj & Ht & [Hc|Hc])].
  - right. intros i p Hi Hs.
    assert (Hsv : stg p = Served).
    { assert (Hno : forall j q, peers x !! j = Some q -> stg q <> Held).
      { intros j [st l o w] Hq Hh. cbn in Hh. subst st. pose proof (Hst _ _ Hq ltac:(discriminate)) as Hw. destruct x as [xs xc xp xg xf]. cbn in *. subst xf.
        both; [eapply W_serve; eauto|rewrite un_ins by auto; eapply W_serve; apply (un_look os (mkW xs xc xp xg Running)); eauto|]. left. cbn. eapply insert_differs; [eauto|discriminate]. }
      destruct p as [st l o w]. pose proof (Hst _ _ Hi) as Hw. destruct st; cbn in *; auto; [contradiction| |destruct (Hno _ _ Hi); reflexivity].
      specialize (Hw ltac:(discriminate)). exfalso. destruct x as [xs xc xp xg xf]. cbn in *. subst xf.
      both; [eapply W_accept; eauto|rewrite un_ins by auto; eapply W_accept; [apply (un_look os (mkW xs xc xp xg Running)); eauto|]|].
      - intros j q Hq. cbn in Hq. rewrite list_lookup_imap in Hq. destruct (xp !! j) as [q0|] eqn:Eq; [|discriminate]. cbn in Hq. injection Hq as <-. pose proof (Hno _ _ Eq). destruct (writing os j); auto.
      - left. cbn. eapply insert_differs; [eauto|discriminate]. }
    split; auto. intros Hw. pose proof (A _ _ Hi) as I. destruct p as [st l o w]. cbn in Hsv. subst st.
    assert (Hx : forall cmd, hnd l <> HExec cmd).
    { intros cmd Hh. destruct (Hfin i _ (net_lookup _ _ _ _ Hi)) as [Hb Ht]. rewrite (conn_sofar _ _ _ Hi I) in Hb, Ht. unfold busy_of in Hb. cbn in *. rewrite Hh in *. destruct o; discriminate. }
    exact (quiet_link _ _ _ _ _ _ _ Hn Hrun Hi I Hw Hx).
  - exfalso. cbn in Hj. apply elem_of_list_lookup in Ht as [i Ht]. destruct t as [q b]. cbn in Hc. subst q. destruct x as [xs xc xp xg xf]. cbn in *. subst xf.
    both; [eapply W_panic; eauto|eapply W_panic; eauto|]. right. right. cbn. discriminate.
  - left. exists j, c, t. auto.
Qed.
Theorem flow_rests (T : Z -> Prop) now sl ds n x os : T now -> (sl < length ds)%nat -> rtc (flows T) (fboot sl ds n) (x, os) -> now_is x = Running -> (forall y, ~ fadvance T (x, os) y) ->
  signal x = false /\
  (spins x \/ forall i p o, peers x !! i = Some p -> os !! i = Some o -> stg p <> Away -> stg p = Served /\
     (waiting o <> [] /\ broken o = false \/ forall cs, sends cs (concat (given (lnk p))) -> map fst (log (lnk p)) = cs /\ (broken o = false -> replied (log (lnk p)) (arrived o)) /\
       match ended (lnk p) with None => hnd (lnk p) = HIdle | Some _ => exists e, hnd (lnk p) = HGone e end)).
Proof.
  intros Hnow Hsl R Hrun Hn. destruct (flow_inv _ _ _ _ _ R) as [A [L O]]. destruct (quiet_links T now sl ds n x os Hnow Hsl R Hrun Hn) as [H1 [H2|H2]]; split; auto. right. intros i p o Hi Ho Hst.
  destruct (H2 i p Hi Hst) as [H3 Hr]. split; auto. destruct (waiting o) as [|c w] eqn:Ew; [right|left; split; [discriminate|destruct (O _ _ _ Hi Ho) as [_ O2 _]; destruct (broken o); auto; destruct (O2 eq_refl); congruence]]. intros cs Hs. pose proof (A _ _ Hi) as I.
  assert (Hw : writing os i = false) by (unfold writing; rewrite Ho; destruct o as [w a b]; cbn in Ew; subst w; reflexivity).
  destruct (pipe_prompt cs (lnk p) (pv_reach _ I) Hs (Hr Hw)) as [E1 E2]. split; [exact E1|]. split; [|exact E2]. intros Hb. destruct (O _ _ _ Hi Ho) as [O1 _ _]. specialize (O1 Hb). rewrite Ew, app_nil_r in O1. rewrite <- O1. exact (pv_wire _ I).
Qed.
Theorem flow_finite T sl ds n (f : nat -> flow) : rtc (flows T) (fboot sl ds n) (f 0%nat) -> ~ (forall n, fadvance T (f n) (f (S n))).
Proof.
  intros R H. apply (world_finite T sl ds n (fun n => (f n).1)); [exact (flows_worlds _ _ _ R)|]. intros k. destruct (H k) as [H1 H2]. split; auto. destruct H1. auto.
Qed.
End WithParams.
