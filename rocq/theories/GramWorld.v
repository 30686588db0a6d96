(** Any bytes at all to the process: proofs. *)
From Verif Require Export GramPipe WorldPanic.

Section WithParams.
Context {P : Setup}.
Theorem world_any_no_panic T sl ds n x : (sl < length ds)%nat -> rtc (happens T) (boot sl ds n) x ->
  (forall i p, peers x !! i = Some p -> exists ks t, reads_as (concat (given (lnk p))) ks t /\ t <> Fatal /\ forall ev, ev ∈ values None ks -> ~ fatal_value ev) ->
  (forall i p cmd, peers x !! i = Some p -> cmd ∈ handed (lnk p) -> panic_free cmd) -> now_is x <> Panicked.
Proof.
  intros Hsl R Hw Hh Hp. destruct (rtc_inv_r _ _ R) as [<-|(y & R' & St)]; [discriminate Hp|].
  destruct (net_reached _ _ _ _ _ R') as [A _].
  destruct St as [St|St]; [destruct St; discriminate Hp|]. destruct St; cbn in Hp; try discriminate Hp; cbn [peers] in *.
  - destruct (Hw _ _ H) as (ks & t & Hs & Ht & _). destruct (A _ _ H) as [I1 I2 _ _ _]. pose proof (parser_panics _ _ I1 H0 H1) as E. cbn [lnk] in *. rewrite (grammar_exact _ _ _ Hs) in E. destruct t; try discriminate. auto.
  - destruct (Hw _ _ H) as (ks & t & Hs & _ & Hv). destruct (A _ _ H) as [I1 I2 _ _ _]. destruct (value_panics _ _ _ _ _ _ I1 I2 Hs H0 H1 H2) as [H3 H4]. eapply Hv; eauto.
  - destruct (Hw _ _ H) as (ks & t & Hs & _ & Hv). destruct (A _ _ H) as [I1 I2 _ _ _]. destruct (empty_handed _ _ _ I1 Hs) as (ev & H3 & H4); [apply in_handed; auto|]. eapply Hv; eauto.
  - assert (He : rets encodes (tcode (mkT (Ret r) false))).
    { refine (world_rets T sl ds n _ (fun _ => encodes) (fun _ _ => True) _ _ R' _ j c i _ H1 H2); auto; [intros _; eexists; reflexivity|intros _ cmd' _ _; apply exec_encodes|intros ? ? ? _ _; exact I]. }
    inversion He as [? [bs E]| | | | | | | | | | | | | | | |]; subst. congruence.
  - assert (HS : all_safe (fun _ => (false, true)) c).
    { eapply world_safe; [exact Hsl|exact R'| |exact H]. intros i' p' cmd' Hi' Hc'. split; [intros _; eapply Hh; eauto|discriminate]. }
    destruct (all_safe_at _ _ _ _ HS H0) as [H1 _]. discriminate (H1 eq_refl).
Qed.

Theorem world_any_rests (T : Z -> Prop) now sl ds n x : T now -> (sl < length ds)%nat -> rtc (happens T) (boot sl ds n) x -> now_is x = Running -> (forall y, ~ wadvance T x y) ->
  spins x \/ forall i p, peers x !! i = Some p -> stg p <> Away -> stg p = Served /\
    forall ks t, reads_as (concat (given (lnk p))) ks t -> map fst (log (lnk p)) = commands (values None ks) /\ replied (log (lnk p)) (written p) /\
      (hnd (lnk p) = HIdle /\ ended (lnk p) = None /\ t <> Fatal /\ (forall e, EvErr e ∉ values None ks) \/ exists e, hnd (lnk p) = HGone e /\ (ended (lnk p) <> None \/ EvErr e ∈ values None ks)).
Proof.
  intros Hnow Hsl R Hrun Hn. destruct (net_reached _ _ _ _ _ R) as [A _]. destruct (world_rest_links T now sl ds n x Hnow Hsl R Hrun Hn) as [H1 [H2|H2]]; auto. right. intros i p Hi Hst.
  destruct (H2 i p Hi Hst) as [H3 Hr]. split; auto. intros ks t Hs. pose proof (A _ _ Hi) as I. destruct (any_prompt (lnk p) ks t (pv_reach _ I) Hs Hr) as [E1 E2]. split; [exact E1|]. split; [exact (pv_wire _ I)|exact E2].
Qed.
(** ** Any client can end the process *)
Lemma away_opened T sl ds n x : rtc (happens T) (boot sl ds n) x -> forall i p, peers x !! i = Some p -> stg p = Away -> lnk p = opened.
Proof.
  revert x. refine (rtc_right T (boot sl ds n) _ _ _); [|intros x y R St IH].
  - intros i p Hi _. cbn in Hi. apply lookup_replicate in Hi as [-> _]. reflexivity.
  - intros i0 p0 Hi Ha. destruct St as [St|St]; destruct St; cbn [peers] in *; eauto;
      (apply lookup_upd in Hi as [[<- ->]|[_ Hi]]; [|eauto]); cbn in Ha; try discriminate Ha. destruct H0; auto.
Qed.
Lemma serve_held T sl cs ps sg k : exists ps', rtc (happens T) (mkW sl cs ps sg Running) (mkW sl cs ps' sg Running) /\
  (forall j p, (j < k)%nat -> ps' !! j = Some p -> stg p <> Held) /\ (forall j p, ps !! j = Some p -> stg p <> Held -> ps' !! j = Some p) /\ length ps' = length ps.
Proof.
  induction k as [|k (ps' & R & H1 & H2 & H3)]; [exists ps; split; [apply rtc_refl|]; split; [intros; lia|auto]|].
  destruct (ps' !! k) as [[[] l o w]|] eqn:E.
  4:{ exists ps'. split; auto. split; auto. intros j p Hj Hp. destruct (decide (j = k)) as [->|]; [|apply (H1 j); auto; lia]. rewrite E in Hp. injection Hp as <-. discriminate. }
  1,2,4: exists ps'; (split; [auto|]); (split; [|auto]); intros j p Hj Hp; (destruct (decide (j = k)) as [->|]; [|apply (H1 j); auto; lia]); rewrite E in Hp; try discriminate Hp; injection Hp as <-; discriminate.
  exists (<[k := mkPeer Served l o w]> ps'). split; [eapply rtc_r; [exact R|right; apply (W_serve T sl cs ps' sg k l o w E)]|]. split; [|split; [|rewrite insert_length; auto]].
  - intros j p Hj Hp. apply lookup_upd in Hp as [[<- ->]|[N Hp]]; [discriminate|]. apply (H1 j); auto. lia.
  - intros j p Hp Hs. specialize (H2 _ _ Hp Hs). destruct (decide (k = j)) as [<-|N]; [|rewrite list_lookup_insert_ne; auto]. rewrite E in H2. injection H2 as <-. destruct Hs. reflexivity.
Qed.
Theorem world_kill T sl ds n x i p : rtc (happens T) (boot sl ds n) x -> now_is x = Running -> peers x !! i = Some p -> stg p = Away ->
  exists y, rtc (happens T) x y /\ now_is y = Panicked /\ exists q, peers y !! i = Some q /\ concat (given (lnk q)) = CRLF.
Proof.
  intros R Hr Hi Ha. pose proof (away_opened _ _ _ _ _ R _ _ Hi Ha) as Ho. destruct x as [wsl cs ps sg nw]. cbn in *. subst nw. destruct p as [st l o w]. cbn in *. subst st l.
  destruct (serve_held T wsl cs ps sg (length ps)) as (ps1 & R1 & H1 & H2 & H3). specialize (H2 _ _ Hi ltac:(discriminate)).
  assert (HL : (i < length ps1)%nat) by (eapply lookup_lt_Some; eauto).
  assert (N0 : forall j p, ps1 !! j = Some p -> stg p <> Held) by (intros j p Hp; apply (H1 j); auto; rewrite <- H3; eapply lookup_lt_Some; eauto).
  set (g := mkLink [CRLF] [CRLF] None false (PRead empty_buf) HIdle [] false).
  eexists. split; [etransitivity; [exact R1|]|].
  - eapply rtc_l; [left; apply (O_connect wsl cs ps1 sg i opened o w H2)|].
    eapply rtc_l; [right; apply (W_accept T wsl cs _ sg i opened o w); [apply list_lookup_insert; auto|]|].
    { intros j p Hp. apply lookup_upd in Hp as [[<- ->]|[_ Hp]]; [discriminate|eauto]. }
    rewrite list_insert_insert. eapply rtc_l; [right; apply (W_serve T wsl cs _ sg i opened o w); apply list_lookup_insert; auto|].
    rewrite list_insert_insert. eapply rtc_l; [left; apply (O_client wsl cs _ sg i Served opened g o w); [apply list_lookup_insert; auto|discriminate|apply (K_send [] [] None _ _ _ CRLF); auto]|].
    rewrite list_insert_insert. eapply rtc_l; [|apply rtc_refl]. right. apply (W_parser_panic T wsl cs _ sg i g o w empty_buf); [apply list_lookup_insert; auto|reflexivity|reflexivity].
  - split; [reflexivity|]. cbn. eexists. split; [apply list_lookup_insert; auto|]. reflexivity.
Qed.
End WithParams.
