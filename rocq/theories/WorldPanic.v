(** How the process ends: proofs. *)
From Verif Require Export WorldMain PipeCalm SafeCmds ServerProofs.

Section WithParams.
Context {P : Setup}.

(** ** Every reply can be encoded *)
Definition encodes (r : rdata) : Prop := exists bs, reply_bytes r = Some bs.
Lemma sendable_encodes r : sendable r -> encodes r.
Proof. intros H. destruct (enc_frame r H) as (f & E & _). unfold encodes, reply_bytes. destruct r; eauto. Qed.
Lemma rets_mono {A} (Q R : A -> Prop) (p : prog A) : (forall a, Q a -> R a) -> rets Q p -> rets R p.
Proof. intros H HP. induction HP; constructor; auto. Qed.
Lemma set_opts_errs args : forall o, match set_opts args o with SP_err e => encodes e | _ => True end.
Proof.
  assert (HH : forall n args, (length args <= n)%nat -> forall o, match set_opts args o with SP_err e => encodes e | _ => True end).
  { induction n as [|n IH]; intros l Hl o; destruct l as [|a r]; cbn [set_opts]; auto; [cbn in Hl; lia|].
    assert (Hr : (length r <= n)%nat) by (cbn in Hl; lia).
    repeat first [ apply IH; auto | exact I
      | match goal with |- match (if ?x then _ else _) with _ => _ end => destruct x end
      | match goal with |- match (match parse_int ?x with _ => _ end) with _ => _ end => destruct (parse_int x) as [? [?|]]; auto end
      | match goal with |- match (match ?r with [] => _ | _ => _ end) with _ => _ end => destruct r as [|b r]; [exact I|]; cbn in Hr end
      | lia | eexists; reflexivity ]. }
  intros o. eapply HH; eauto.
Qed.
Lemma lpos_opts_errs args : forall o, match lpos_opts args o with inr e => encodes e | inl _ => True end.
Proof.
  assert (HH : forall n args, (length args <= n)%nat -> forall o, match lpos_opts args o with inr e => encodes e | inl _ => True end).
  { induction n as [|n IH]; intros l Hl o; destruct l as [|a [|b r]]; cbn [lpos_opts]; auto; [cbn in Hl; lia|].
    assert (Hr : (length r <= n)%nat) by (cbn in Hl; lia).
    repeat first [ apply IH; auto | exact I
      | match goal with |- match (if ?x then _ else _) with _ => _ end => destruct x end
      | match goal with |- match (match atoi ?x with _ => _ end) with _ => _ end => destruct (atoi x) end
      | eexists; reflexivity ]. }
  intros o. eapply HH; eauto.
Qed.
Ltac ec := first
  [ assumption | apply sendable_encodes; sd | eexists; reflexivity | match goal with |- encodes (if ?x then _ else _) => destruct x; ec end ].
Ltac rt_enc := repeat first
  [ match goal with |- rets _ (Ret _) => apply rets_Ret; ec end
  | apply rets_Crash | apply rets_with_lock | apply rets_with_mlock
  | match goal with |- rets _ (pbind _ _) => apply rets_bind_any; intros ? end
  | match goal with |- rets _ (if ?x then _ else _) => destruct x end
  | match goal with |- rets _ (match ?x with _ => _ end) => destruct x end
  | progress cbv zeta ].
Lemma exec_encodes cmd : rets encodes (exec_in_db cmd).
Proof.
  assert (Hs : (echoes cmd -> False) -> rets encodes (exec_in_db cmd)).
  { intros H. eapply rets_mono; [apply sendable_encodes|]. apply replies_sendable. intros E. destruct (H E). }
  unfold exec_in_db in *. destruct cmd as [|n args]; [constructor|]. unfold echoes in Hs. destruct (lookup_cmd (to_lower (str n))) as [ex|] eqn:E; [|constructor; eexists; reflexivity].
  apply assoc_in in E. unfold cmd_table in E. cbn [In] in E.
  repeat (destruct E as [E|E]; [injection E as E <-; rewrite <- E in Hs|]); [..|destruct E];
    try (apply Hs; intros [H|[H|[H|H]]]; discriminate H); clear Hs.
  - unfold expire_key, expire_run. rt_enc.
  - unfold set_string. destruct args as [|? [|? args]]; try (apply rets_Ret; ec). pose proof (set_opts_errs args no_opts) as Ho. apply rets_bind_any. intros ?.
    destruct (set_opts args no_opts) as [o|e|]; rt_enc.
  - unfold lpos_list. destruct args as [|? [|? args]]; try (apply rets_Ret; ec). pose proof (lpos_opts_errs args (mkLpos None None None)) as Ho.
    destruct (Nat.even _); [apply rets_Ret; ec|]. apply rets_bind_any. intros [|]; [apply rets_Ret; ec|]. destruct (lpos_opts _ _); rt_enc.
Qed.

(** ** The executors *)
Lemma rtc_right T x (Q : world -> Prop) : Q x -> (forall y z, rtc (happens T) x y -> happens T y z -> Q y -> Q z) -> forall z, rtc (happens T) x z -> Q z.
Proof. intros H0 H z R. exact (rtc_ind_r Q x H0 (fun y z R St => H y z R St) z R). Qed.
Lemma rets_cstep {A} (Q : nat -> A -> Prop) T (c c' : conf A) : cstep T c c' -> (forall i t, ths c !! i = Some t -> rets (Q i) (tcode t)) -> forall i t, ths c' !! i = Some t -> rets (Q i) (tcode t).
Proof.
  intros St H. destruct St as [d L ts i p d' p' Hi Hp|d L ts i pos k n Hi HL|d L ts i pos k n Hi HL|d L ts i pos k Hi HL|d L ts i pos k n b Hi HL|d L ts i pos k n b Hi HL]; cbn [ths] in *; intros i' t Ht;
    (apply lookup_upd in Ht as [[<- ->]|[_ Ht]]; [|eauto]); cbn; specialize (H _ _ Hi); cbn in H; try (inversion H; subst; auto; fail).
  inversion Hp; subst; inversion H; subst; auto.
Qed.
Lemma gi_world T sl ds n x : (sl < length ds)%nat -> rtc (happens T) (boot sl ds n) x -> GI (net (sofar x) x).
Proof. intros Hsl R. destruct (net_reached _ _ _ _ _ R) as [_ RN]. eapply gi_rtc; [exact RN|]. apply gi_serve. exact Hsl. Qed.
(** The goroutine of a client that has nothing in execution. *)
Lemma idle_returned T sl ds n x i l w j c : (sl < length ds)%nat -> rtc (happens T) (boot sl ds n) x -> peers x !! i = Some (mkPeer Served l None w) -> wcores x !! j = Some c ->
  exists r b, ths c !! i = Some (mkT (Ret r) b).
Proof.
  intros Hsl R Hi Hj. destruct (gi_world _ _ _ _ _ Hsl R) as [G1 G2 _ _]. destruct (G1 j c Hj) as [_ HL].
  assert (Hs : sess (net (sofar x) x) !! i = Some (conn_of (default [] (sofar x !! i)) (mkPeer Served l None w))) by (apply net_lookup; auto).
  destruct (lookup_lt_is_Some_2 (ths c) i) as [[p b] Ht]; [rewrite HL; eapply lookup_lt_Some; exact Hs|].
  destruct (G2 j c i _ _ Hj Hs Ht) as [(cmd & Hb)|[r E]]; [discriminate Hb|]. cbn in E. subst p. eauto.
Qed.
Definition handed_all (Q : nat -> command -> Prop) (x : world) : Prop := forall i p cmd, peers x !! i = Some p -> cmd ∈ handed (lnk p) -> Q i cmd.
Lemma handed_back Q T x y : all_peers x -> happens T x y -> handed_all Q y -> handed_all Q x.
Proof.
  intros A H HQ i p cmd Hi Hc. destruct (happens_pmove _ _ _ H) as [L M]. destruct (lookup_lt_is_Some_2 (peers y) i) as [p' Hp']; [rewrite L; eapply lookup_lt_Some; eauto|].
  destruct (handed_move p p' (A _ _ Hi) (M _ _ _ Hi Hp')) as [r E]. eapply HQ; [exact Hp'|]. rewrite E. apply elem_of_app. auto.
Qed.
Lemma in_handed l cmd : hnd l = HExec cmd -> cmd ∈ handed l.
Proof. intros E. unfold handed. rewrite E. apply elem_of_app. right. left. Qed.
Definition per_client (fl : nat -> bool * bool) (i : nat) (cmd : command) : Prop := ((fl i).1 = false -> panic_free cmd) /\ ((fl i).2 = false -> ~ may_loop cmd).
Lemma world_safe T sl ds n x fl : (sl < length ds)%nat -> rtc (happens T) (boot sl ds n) x -> handed_all (per_client fl) x -> forall j c, wcores x !! j = Some c -> all_safe fl c.
Proof.
  intros Hsl R. revert x R. refine (rtc_right T (boot sl ds n) _ _ _); [|intros x y R St IH].
  - intros _ j c Hj. cbn in Hj. apply map_lookup_some in Hj as (d & Hj & ->). apply all_safe_start.
    + apply Forall_forall. intros p Hp. apply elem_of_list_In, elem_of_replicate in Hp as [-> _]. constructor.
    + intros i p Hp. apply lookup_replicate in Hp as [-> _]. constructor.
  - intros HQ. pose proof (proj1 (net_reached _ _ _ _ _ R)) as A. pose proof (handed_back _ _ _ _ A St HQ) as HQ'. specialize (IH HQ').
    destruct St as [St|St]; destruct St; cbn [wcores] in *; auto.
    + intros j c0 Hj. apply lookup_upd in Hj as [[<- ->]|[_ Hj]]; [|eauto].
      match goal with Hi : ps !! i = Some _ |- _ => rename Hi into Hpi end. match goal with Hc : cs !! _ = Some c |- _ => rename Hc into Hci end. match goal with Hx : hnd l = _ |- _ => rename Hx into Hxi end.
      destruct (idle_returned _ _ _ _ _ _ _ _ _ _ Hsl R Hpi Hci) as (r & b & Ht). destruct (HQ' _ _ cmd Hpi (in_handed _ _ Hxi)) as [Hq1 Hq2]. specialize (IH _ _ Hci).
      eapply all_safe_arrive; [exact IH|exact Ht|apply exec_wf_us; auto|apply exec_safe; auto].
    + intros j' c0 Hj. apply lookup_upd in Hj as [[<- ->]|[_ Hj]]; [|eauto]. eapply all_safe_step; eauto.
Qed.
Definition echo_ok (cmd : command) : Prop := may_echo cmd -> crlf_free cmd.
Lemma world_rets T sl ds n x (Q : nat -> rdata -> Prop) (R : nat -> command -> Prop) : (forall i, Q i Prog.rnil) -> (forall i cmd, R i cmd -> is_select cmd = false -> rets (Q i) (exec_in_db cmd)) ->
  rtc (happens T) (boot sl ds n) x -> handed_all R x -> forall j c i t, wcores x !! j = Some c -> ths c !! i = Some t -> rets (Q i) (tcode t).
Proof.
  intros H0 HE Rx. revert x Rx. refine (rtc_right T (boot sl ds n) _ _ _); [|intros x y Rx St IH].
  - intros _ j c i t Hj Ht. cbn in Hj. apply map_lookup_some in Hj as (d & Hj & ->). cbn in Ht. apply map_lookup_some in Ht as (p & Hp & ->). apply lookup_replicate in Hp as [-> _]. constructor. auto.
  - intros HQ. pose proof (proj1 (net_reached _ _ _ _ _ Rx)) as A. pose proof (handed_back _ _ _ _ A St HQ) as HQ'. specialize (IH HQ').
    destruct St as [St|St]; destruct St; cbn [wcores] in *; eauto.
    + intros j c0 i0 t Hj. apply lookup_upd in Hj as [[<- ->]|[_ Hj]]; [|eauto]. cbn. intros Ht. apply lookup_upd in Ht as [[<- ->]|[_ Ht]]; [|eauto]. cbn. apply HE; auto.
      eapply HQ'; [cbn; eassumption|]. apply in_handed. auto.
    + intros j' c0 i0 t Hj. apply lookup_upd in Hj as [[<- ->]|[_ Hj]]; [|eauto]. eapply rets_cstep; eauto.
Qed.
(** ** Panics *)
Theorem world_no_panic T sl ds n x : (sl < length ds)%nat -> rtc (happens T) (boot sl ds n) x ->
  (forall i p, peers x !! i = Some p -> exists cs q, sends cs (concat (given (lnk p)) ++ q)) ->
  (forall i p cmd, peers x !! i = Some p -> cmd ∈ handed (lnk p) -> panic_free cmd) -> now_is x <> Panicked.
Proof.
  intros Hsl R Hw Hh Hp. destruct (rtc_inv_r _ _ R) as [<-|(y & R' & St)]; [discriminate Hp|].
  destruct (net_reached _ _ _ _ _ R') as [A _].
  destruct St as [St|St]; [destruct St; discriminate Hp|]. destruct St; cbn in Hp; try discriminate Hp; cbn [peers] in *.
  - destruct (Hw _ _ H) as (cs0 & q & Hs). destruct (A _ _ H) as [I1 I2 _ _ _]. destruct (pipe_calm _ _ _ I1 Hs I2) as (C1 & _ & _). eapply C1; eauto.
  - destruct (Hw _ _ H) as (cs0 & q & Hs). destruct (A _ _ H) as [I1 I2 _ _ _]. destruct (pipe_calm _ _ _ I1 Hs I2) as (_ & C2 & _). eapply C2; eauto.
  - destruct (Hw _ _ H) as (cs0 & q & Hs). destruct (A _ _ H) as [I1 I2 _ _ _]. destruct (pipe_calm _ _ _ I1 Hs I2) as (_ & _ & C3). apply C3. auto.
  - assert (He : rets encodes (tcode (mkT (Ret r) false))).
    { refine (world_rets T sl ds n _ (fun _ => encodes) (fun _ _ => True) _ _ R' _ j c i _ H1 H2); auto; [intros _; eexists; reflexivity|intros _ cmd' _ _; apply exec_encodes|intros ? ? ? _ _; exact I]. }
    inversion He as [? [bs E]| | | | | | | | | | | | | | | |]; subst. congruence.
  - assert (HS : all_safe (fun _ => (false, true)) c).
    { eapply world_safe; [exact Hsl|exact R'| |exact H]. intros i' p' cmd' Hi' Hc'. split; [intros _; eapply Hh; eauto|discriminate]. }
    destruct (all_safe_at _ _ _ _ HS H0) as [H1 _]. discriminate (H1 eq_refl).
Qed.
Theorem world_no_spin T sl ds n x : (sl < length ds)%nat -> rtc (happens T) (boot sl ds n) x ->
  (forall i p cmd, peers x !! i = Some p -> cmd ∈ handed (lnk p) -> ~ may_loop cmd) -> ~ spins x.
Proof.
  intros Hsl R Hh (j & c & t & Hj & Ht & E). apply elem_of_list_lookup in Ht as [i Ht].
  assert (HS : all_safe (fun _ => (true, false)) c).
  { eapply world_safe; [exact Hsl|exact R| |exact Hj]. intros i' p' cmd' Hi' Hc'. split; [discriminate|intros _; eapply Hh; eauto]. }
  destruct (all_safe_at _ _ _ _ HS Ht) as [_ H1]. discriminate (H1 E).
Qed.
(** The process exits only after a signal. *)
Theorem world_exit T sl ds n x : rtc (happens T) (boot sl ds n) x -> now_is x = Exited ->
  exists y z, rtc (happens T) (boot sl ds n) y /\ notified y z /\ rtc (happens T) z x.
Proof.
  intros R E. assert (H : signal x = true).
  { revert x R E. refine (rtc_right T (boot sl ds n) _ _ _); [discriminate|intros x y R St IH]. destruct St as [St|St]; destruct St; cbn in *; auto; discriminate. }
  clear E. revert x R H. refine (rtc_right T (boot sl ds n) _ _ _); [discriminate|intros x y R St IH Hy].
  destruct (signal x) eqn:Hx.
  - destruct (IH eq_refl) as (u & v & R1 & N & R2). exists u, v. split; [exact R1|]. split; [exact N|]. eapply rtc_r; eauto.
  - exists x, y. split; [exact R|]. split; [|apply rtc_refl]. destruct St as [St|St]; [|destruct St; cbn in *; congruence]. split; [exact St|]. destruct St; cbn in *; congruence.
Qed.
Lemma notified_signal x y : notified x y -> signal y = true.
Proof.
  intros [St E]. destruct St as [sl cs ps sg i l o w Hi|sl cs ps sg i st l l' o w Hi Ha Hc|]; cbn in *; [exfalso|exfalso|reflexivity].
  - apply (f_equal (lookup i)) in E. rewrite list_lookup_insert in E by (eapply lookup_lt_Some; eauto). congruence.
  - apply (f_equal (lookup i)) in E. rewrite list_lookup_insert in E by (eapply lookup_lt_Some; eauto). assert (l' = l) by congruence. clear -Hc H.
    destruct Hc; [|congruence]. injection H as H _. apply (f_equal length) in H. rewrite app_length in H. cbn in H. lia.
Qed.
Theorem world_stops T y z x : notified y z -> rtc (happens T) z x -> (forall u, ~ wadvance T x u) -> now_is x <> Running.
Proof.
  intros N R Hn Hr. apply notified_signal in N. assert (H : signal x = true).
  { clear Hn Hr. induction R as [|z u x St R IH]; [exact N|]. apply IH. destruct St as [St|St]; destruct St; cbn in *; auto. }
  destruct x as [sl cs ps sg f]. cbn in *. subst. eapply Hn. split; [apply W_exit|]. right. right. discriminate.
Qed.
Theorem world_final T x y : now_is x <> Running -> ~ happens T x y.
Proof. intros H [St|St]; destruct St; apply H; reflexivity. Qed.
(** ** What is written *)
Theorem world_frames T sl ds n x : rtc (happens T) (boot sl ds n) x ->
  (forall i p cmd, peers x !! i = Some p -> cmd ∈ handed (lnk p) -> may_echo cmd -> crlf_free cmd) ->
  forall i p, peers x !! i = Some p -> frames (map snd (log (lnk p))) (written p).
Proof.
  intros R Hh i p Hi.
  assert (HF : forall i p, peers x !! i = Some p -> Forall sendable (map snd (log (lnk p)))).
  { clear i p Hi. revert Hh. change (handed_all (fun _ => echo_ok) x -> forall i p, peers x !! i = Some p -> Forall sendable (map snd (log (lnk p)))).
    revert x R. refine (rtc_right T (boot sl ds n) _ _ _); [|intros x y R St IH]; intros HQ i p Hi; [cbn in Hi; apply lookup_replicate in Hi as [-> _]; constructor|].
    pose proof (proj1 (net_reached _ _ _ _ _ R)) as A. pose proof (handed_back _ _ _ _ A St HQ) as HQ'. specialize (IH HQ').
    assert (HT : forall j c i r, wcores x !! j = Some c -> ths c !! i = Some (mkT (Ret r) false) -> sendable r).
    { intros j c i' r Hj Ht. assert (He : rets sendable (tcode (mkT (Ret r) false))).
      { refine (world_rets T sl ds n _ (fun _ => sendable) (fun _ => echo_ok) _ _ R HQ' j c i' _ Hj Ht); [intros _; constructor|intros _ cmd' Hc Hns]. apply replies_sendable. intros E. apply Hc. apply echoes_may; auto. }
      inversion He; auto. }
    destruct St as [St|St]; destruct St; cbn [peers wcores] in *; eauto; (apply lookup_upd in Hi as [[<- ->]|[_ Hi]]; [|eauto]); cbn [lnk]; try (match goal with H : _ !! _ = Some (mkPeer _ _ _ _) |- _ => exact (IH _ _ H) end).
    - match goal with H : ps !! _ = Some _, Hc : Pipe.client _ _ |- _ => specialize (IH _ _ H); inversion Hc; subst; exact IH end.
    - match goal with H : ps !! _ = Some _, E : log l' = log l |- _ => specialize (IH _ _ H); rewrite E; exact IH end.
    - cbn. rewrite map_app. apply Forall_app. match goal with H : ps !! _ = Some _, Hx : hnd l = _ |- _ => pose proof (HQ' _ _ cmd H (in_handed l cmd Hx)) as Hq; split; [exact (IH _ _ H)|] end.
      repeat constructor. cbn. eapply (mexec_sendable T (mkMgr sl0 (map cdb cs))); [exact Hq|]. apply mx_select; auto.
    - cbn. rewrite map_app. apply Forall_app. match goal with H : ps !! _ = Some _ |- _ => split; [exact (IH _ _ H)|] end. repeat constructor. cbn. eapply HT; eauto. }
  specialize (HF _ _ Hi). pose proof (pv_wire _ (proj1 (net_reached _ _ _ _ _ R) _ _ Hi)) as Hw. revert HF Hw. generalize (log (lnk p)) (written p). clear.
  intros lg w HF Hw. induction Hw as [|lg bs cmd r f _ IH E]; [constructor|]. rewrite map_app in *. apply Forall_app in HF as [H1 H2]. specialize (IH H1). inversion H2 as [|? ? Hr _]; subst. cbn in Hr.
  destruct (enc_frame r Hr) as (f' & E1 & E2). assert (f' = f) as -> by (unfold reply_bytes in E; destruct r; try congruence; inversion Hr).
  clear -IH E2. revert IH. generalize (map snd lg). intros l IH. cbn. induction IH as [|d l f0 s Hd _ IH]; cbn; [replace f with (f ++ []) by apply app_nil_r; repeat constructor; auto|rewrite <- app_assoc; constructor; auto].
Qed.
End WithParams.
