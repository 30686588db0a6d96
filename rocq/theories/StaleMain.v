(** Handlers that see an old value of the selected database: what all executions keep. *)
From Verif Require Export StaleProofs PartsProofs.
From Verif Require MainStart.

Section WithParams.
Context {P : Setup}.
Lemma ext_holds qs x st : holds (extw qs x) st <-> holds x st.
Proof.
  unfold holds, extw. cbn. rewrite map_length. split; intros (H1 & H2 & H3); (split; [auto|split; [auto|]]); intros j c M Hj HM key.
  - apply (H3 j (extc (length qs) c) M); auto. apply ext_at. auto.
  - apply ext_inv in Hj as (c0 & Hj & ->). apply (H3 j c0 M); auto.
Qed.
Theorem stale_as T sl ds n x : (sl < length ds)%nat -> zlen ds <= max_int -> rtc (races T) (boot sl ds n) x ->
  exists ks qs x', Forall (fun k => 0 <= k < zlen ds) ks /\ Forall2 selector ks qs /\ rtc (happens T) (boot sl ds (n + length ks)) x' /\ enlarged qs x x'.
Proof.
  intros H1 H2 R. destruct (races_as T sl ds n x H1 H2 R) as (ks & qs & Hk & Hq & R'). exists ks, qs, (extw qs x). split; auto. split; auto. split; auto. split; auto. split; auto. split; auto. split; auto. unfold extw. cbn [wcores].
  clear. induction (wcores x); cbn; constructor; auto.
Qed.
Lemma sized_rtc T x y : rtc (races T) x y -> sized x -> sized y.
Proof. induction 1 as [|x y z H _ IH]; auto. intros Hx. apply IH. eapply sized_races; eauto. Qed.
Lemma ext_here qs x i p : peers x !! i = Some p -> peers (extw qs x) !! i = Some p.
Proof. intros H. cbn. apply lookup_app_l_Some. auto. Qed.
(** What is known of a further client. *)
Lemma sel_parse k st : sends [selcmd k] (concat st) -> parse_stream st = ([cmd_event (selcmd k); EvErr EEof], Closed).
Proof. intros H. rewrite (pipeline_exact [selcmd k] st H). reflexivity. Qed.
Lemma sel_asks k s : sends [selcmd k] s -> asks s [selcmd k].
Proof. intros H. apply asks_parse. rewrite (pipeline_exact [selcmd k] [s]) by (cbn; rewrite app_nil_r; exact H). cbn. reflexivity. Qed.
Lemma sel_reads k s : sends [selcmd k] s -> exists ks t, reads_as s ks t /\ t <> Fatal /\ forall ev, ev ∈ values None ks -> ~ fatal_value ev.
Proof.
  intros H. destruct (grammar_total s) as (ks & t & Hr). exists ks, t. split; auto. assert (E : s = concat [s]) by (cbn; rewrite app_nil_r; reflexivity). rewrite E in Hr, H.
  pose proof (grammar_exact _ _ _ Hr) as G. rewrite (sel_parse k _ H) in G. injection G as G1 G2. split; [intros ->; discriminate|].
  intros ev Hev. assert (Hin : ev ∈ [cmd_event (selcmd k); EvErr EEof]) by (unfold cmd_event in *; rewrite G1; apply elem_of_app; auto).
  apply elem_of_cons in Hin as [->|Hin]; [|apply elem_of_list_singleton in Hin as ->]; intros [F|(l & F & F')]; try discriminate. unfold cmd_event in F. injection F as <-. destruct F' as [F'|F']; [discriminate|].
  repeat (apply elem_of_cons in F' as [F'|F']; [discriminate|]). inversion F'.
Qed.
Lemma sel_panic_free k : panic_free (selcmd k).
Proof. left. intros s Hs. cbn in Hs. unfold named. cbn. repeat (destruct Hs as [<-|Hs]; [vm_compute; discriminate|]). destruct Hs. Qed.
Lemma sel_handed k p cmd : selector k p -> cmd ∈ handed (lnk p) -> cmd = selcmd k.
Proof. intros (_ & _ & _ & Hh & _ & _ & Hl & _) H. unfold handed in H. rewrite Hl, Hh in H. cbn in H. apply elem_of_list_singleton in H. auto. Qed.
Lemma ext_case ks qs x i p : Forall2 selector ks qs -> peers (extw qs x) !! i = Some p -> peers x !! i = Some p \/ exists k, selector k p.
Proof. intros HF H. cbn in H. apply (ext_peer ks) in H as [[H _]|H]; auto. Qed.

Theorem stale_no_panic T sl ds n x : (sl < length ds)%nat -> zlen ds <= max_int -> rtc (races T) (boot sl ds n) x ->
  (forall i p, peers x !! i = Some p -> exists ks t, reads_as (concat (given (lnk p))) ks t /\ t <> Fatal /\ forall ev, ev ∈ values None ks -> ~ fatal_value ev) ->
  (forall i p cmd, peers x !! i = Some p -> cmd ∈ handed (lnk p) -> panic_free cmd) -> now_is x <> Panicked.
Proof.
  intros H1 H2 R H3 H4. destruct (races_as T sl ds n x H1 H2 R) as (ks & qs & Hk & Hq & R'). refine (world_any_no_panic T sl ds _ _ H1 R' _ _).
  - intros i p Hi. destruct (ext_case _ _ _ _ _ Hq Hi) as [Hi'|(k & Hs)]; eauto. eapply sel_reads. apply Hs.
  - intros i p cmd Hi Hc. destruct (ext_case _ _ _ _ _ Hq Hi) as [Hi'|(k & Hs)]; eauto. rewrite (sel_handed _ _ _ Hs Hc). apply sel_panic_free.
Qed.
Theorem stale_served (T : Z -> Prop) now sl ds n x : T now -> (sl < length ds)%nat -> zlen ds <= max_int -> rtc (races T) (boot sl ds n) x -> now_is x = Running -> (forall y, ~ wadvance T x y) ->
  spins x \/ forall i p, peers x !! i = Some p -> stg p <> Away -> stg p = Served /\
    forall ks t, reads_as (concat (given (lnk p))) ks t -> map fst (log (lnk p)) = commands (values None ks) /\ replied (log (lnk p)) (written p) /\
      (hnd (lnk p) = HIdle /\ ended (lnk p) = None /\ t <> Fatal /\ (forall e, EvErr e ∉ values None ks) \/ exists e, hnd (lnk p) = HGone e /\ (ended (lnk p) <> None \/ EvErr e ∈ values None ks)).
Proof.
  intros Hnow H1 H2 R Hr Hn. destruct (races_as T sl ds n x H1 H2 R) as (ks & qs & Hk & Hq & R'). pose proof (sized_rtc _ _ _ R (boot_sized sl ds n H1)) as [HL _].
  destruct (world_any_rests T now sl ds _ _ Hnow H1 R' Hr (ext_rests T ks qs x Hq HL Hn)) as [H|H]; [left; apply (proj1 (ext_spins qs x) H)|right].
  intros i p Hi. apply (H i p). apply ext_here. auto.
Qed.
Theorem stale_frames T sl ds n x : (sl < length ds)%nat -> zlen ds <= max_int -> rtc (races T) (boot sl ds n) x ->
  (forall i p cmd, peers x !! i = Some p -> cmd ∈ handed (lnk p) -> may_echo cmd -> crlf_free cmd) ->
  forall i p, peers x !! i = Some p -> frames (map snd (log (lnk p))) (written p).
Proof.
  intros H1 H2 R H3 i p Hi. destruct (races_as T sl ds n x H1 H2 R) as (ks & qs & Hk & Hq & R'). refine (world_frames T sl ds _ _ R' _ i p (ext_here qs x i p Hi)).
  intros i' p' cmd Hi' Hc He. destruct (ext_case _ _ _ _ _ Hq Hi') as [Hi2|(k & Hs)]; eauto. rewrite (sel_handed _ _ _ Hs Hc) in *. exfalso. unfold may_echo, selcmd in He. destruct He as [He|[He|[He|[He _]]]]; [vm_compute in He; discriminate He..|].
  apply He. reflexivity.
Qed.
(** The commands of all clients, with the further ones. *)
Definition with_sels (css : list (list command)) (ks : list Z) : list (list command) := css ++ map (fun k => [selcmd k]) ks.
Lemma with_len css ks : length (with_sels css ks) = (length css + length ks)%nat.
Proof. unfold with_sels. rewrite app_length, map_length. auto. Qed.
Lemma with_each (Q : command -> Prop) css ks : each Q css -> (forall k, Q (selcmd k)) -> each Q (with_sels css ks).
Proof. intros H1 H2 cmds cmd Hc Hd. apply elem_of_app in Hc as [Hc|Hc]; [eauto|]. apply elem_of_list_fmap in Hc as (k & -> & _). apply elem_of_list_singleton in Hd as ->. auto. Qed.
Lemma sel_locked k : locked (selcmd k).
Proof. split; reflexivity. Qed.
Lemma sel_far T lim k : far_deadlines T lim (selcmd k).
Proof. split; [intros [H|H]; vm_compute in H; discriminate H|intros H; vm_compute in H; discriminate H]. Qed.
Lemma ext_asks css ks qs x (Q : peer -> Prop) : Forall2 selector ks qs -> length (peers x) = length css ->
  (forall i p, peers x !! i = Some p -> Q p /\ exists cs, css !! i = Some cs /\ asks (concat (given (lnk p))) cs) -> (forall k q, selector k q -> Q q) ->
  forall i p, peers (extw qs x) !! i = Some p -> Q p /\ exists cs, with_sels css ks !! i = Some cs /\ asks (concat (given (lnk p))) cs.
Proof.
  intros HF HL H HQ i p Hi. cbn in Hi. apply lookup_app_Some in Hi as [Hi|[Hge Hi]].
  - destruct (H i p Hi) as (H1 & cs & H2 & H3). split; auto. exists cs. split; auto. apply lookup_app_l_Some. auto.
  - destruct (Forall2_lookup_r _ _ _ _ _ HF Hi) as (k & Hk & Hs). split; [eauto|]. exists [selcmd k]. split; [|apply sel_asks, Hs].
    unfold with_sels. rewrite lookup_app_r by lia. rewrite list_lookup_fmap, <- HL, Hk. reflexivity.
Qed.
Lemma peers_len T x y : rtc (races T) x y -> sized x -> length (peers y) = length (peers x).
Proof. induction 1 as [|x y z H _ IH]; auto. intros Hx. destruct (sized_races T x y Hx H) as [Hy _]. rewrite IH by auto. apply (len_happens T x y (proj1 Hx) H). Qed.

Theorem stale_parts (T : Z -> Prop) lim dbs css x : (1 <= dbs)%nat -> Z.of_nat dbs <= max_int -> (exists t, T t) -> (forall t, T t -> t <= lim) ->
  rtc (races T) (boot 0 (replicate dbs empty_db) (length css)) x ->
  (forall i p, peers x !! i = Some p -> exists cs, css !! i = Some cs /\ asks (concat (given (lnk p))) cs) ->
  each locked css -> each (far_deadlines T lim) css ->
  exists m z0 z, clean_slate dbs (length css + m) z0 /\ rtc (serves T) z0 z /\ holds x z.1 /\
    (forall i p, peers x !! i = Some p -> exists a cs rest, z.2 !! i = Some a /\ agrees p a /\
        css !! i = Some cs /\ cs = map fst (paid a) ++ match current a with Some t => [asked_for t] | None => [] end ++ rest) /\
    forall i a, (length css <= i)%nat -> z.2 !! i = Some a -> exists k, 0 <= k < Z.of_nat dbs /\ a = mkAcc [([Some (B "select"); Some (fmt_int k)], ok)] None.
Proof.
  intros Hdb Hm Ht HT R Ha H1 H2. pose proof (boot_sized 0 (replicate dbs empty_db) (length css)) as HS. rewrite replicate_length in HS. specialize (HS ltac:(lia)).
  destruct (races_as T 0 (replicate dbs empty_db) (length css) x) as (ks & qs & Hk & Hq & R'); auto; [rewrite replicate_length; lia|unfold zlen; rewrite replicate_length; lia|].
  unfold zlen in Hk. rewrite replicate_length in Hk. pose proof (peers_len _ _ _ R HS) as HL. cbn in HL. rewrite replicate_length in HL.
  rewrite <- with_len in R'. destruct (rtc_path _ _ _ R') as (N & f & H0 & HN & Hf).
  destruct (parts_whole T lim dbs (with_sels css ks) f N Hdb Ht HT H0 Hf) as (g & g0 & gS & gA).
  { intros i p Hi. rewrite HN in Hi. refine (proj2 (ext_asks css ks qs x (fun _ => True) Hq HL _ _ i p Hi)); auto. }
  { apply with_each; auto using sel_locked. } { apply with_each; auto using sel_far. }
  exists (length ks), (g 0%nat), (g N). rewrite <- with_len. split; auto.
  assert (HP : forall n, (n <= N)%nat -> rtc (serves T) (g 0%nat) (g n)) by (induction n as [|n IH]; intros Hn; [apply rtc_refl|etransitivity; [apply IH; lia|apply gS; lia]]). split; [apply HP; lia|].
  destruct (gA N ltac:(lia)) as [gH gP]. rewrite HN in gH, gP. split; [apply (proj1 (ext_holds qs x _) gH)|]. split.
  - intros i p Hi. destruct (gP i p (ext_here qs x i p Hi)) as (a & cs & rest & A1 & A2 & A3 & A4). exists a, cs, rest. split; auto. split; auto. split; auto.
    destruct (Ha i p Hi) as (cs' & Hc & _). unfold with_sels in A3. rewrite lookup_app_l in A3 by (eapply lookup_lt_Some; eauto). auto.
  - intros i a Hge Hi. pose proof (HP N ltac:(lia)) as HR. assert (Hlen : length (g N).2 = (length css + length ks)%nat).
    { assert (G : forall y z, rtc (serves T) y z -> length z.2 = length y.2) by (induction 1 as [|y z u Hs _ IH]; auto; rewrite IH; destruct Hs; cbn; rewrite ?insert_length; auto).
      rewrite (G _ _ HR). destruct g0 as [_ g0]. rewrite g0, replicate_length, with_len. auto. }
    pose proof (lookup_lt_Some _ _ _ Hi) as Hlt. rewrite Hlen in Hlt. destruct (lookup_lt_is_Some_2 qs (i - length css)) as [q Hq']; [rewrite <- (Forall2_length _ _ _ Hq); lia|].
    destruct (Forall2_lookup_r _ _ _ _ _ Hq Hq') as (k & Hk' & Hs). assert (Hpi : peers (extw qs x) !! i = Some q) by (cbn; rewrite lookup_app_r by lia; rewrite HL; auto).
    destruct (gP i q Hpi) as (a' & cs & rest & A1 & (A2 & _ & A2') & _). rewrite Hi in A1. injection A1 as <-. destruct Hs as (_ & S1 & _ & _ & _ & _ & S2 & _). rewrite S1 in A2'. rewrite S2 in A2. exists k. split.
    + rewrite Forall_forall in Hk. apply Hk. apply elem_of_list_In. eapply elem_of_list_lookup_2; eauto.
    + destruct a as [pd cu]. cbn in *. subst. reflexivity.
Qed.
Theorem stale_answered (T : Z -> Prop) lim dbs css x : (1 <= dbs)%nat -> Z.of_nat dbs <= max_int -> (exists t, T t) -> (forall t, T t -> t <= lim) ->
  rtc (races T) (boot 0 (replicate dbs empty_db) (length css)) x -> now_is x = Running -> (forall y, ~ wadvance T x y) -> ~ spins x ->
  (forall i p, peers x !! i = Some p -> stg p <> Away /\ exists cs, css !! i = Some cs /\ asks (concat (given (lnk p))) cs) ->
  each locked css -> each (far_deadlines T lim) css ->
  exists m z0 z, clean_slate dbs (length css + m) z0 /\ rtc (serves T) z0 z /\ holds x z.1 /\
    (forall i p cs, peers x !! i = Some p -> css !! i = Some cs -> exists a, z.2 !! i = Some a /\ current a = None /\ map fst (paid a) = cs /\ replied (paid a) (written p)) /\
    forall i a, (length css <= i)%nat -> z.2 !! i = Some a -> exists k, 0 <= k < Z.of_nat dbs /\ a = mkAcc [([Some (B "select"); Some (fmt_int k)], ok)] None.
Proof.
  intros Hdb Hm Ht HT R Hr Hn Hsp Ha H1 H2. destruct (stale_parts T lim dbs css x Hdb Hm Ht HT R) as (m & z0 & z & Z1 & Z2 & Z3 & Z4 & Z5); auto; [intros i p Hi; apply (Ha i p Hi)|].
  exists m, z0, z. split; auto. split; auto. split; auto. split; [|exact Z5]. intros i p cs Hi Hc. destruct Ht as [t0 Ht0].
  destruct (stale_served T t0 0 (replicate dbs empty_db) (length css) x) as [Hs|Hs]; auto; [rewrite replicate_length; lia|unfold zlen; rewrite replicate_length; lia|contradiction|].
  destruct (Ha i p Hi) as (Hst & cs' & Hc' & ks & t & Hre & Ecs). destruct (Hs i p Hi Hst) as (_ & Hs'). destruct (Hs' ks t Hre) as (E1 & E2 & E3). destruct (Z4 i p Hi) as (a & cs2 & rest & A1 & (A2 & A2' & A3) & A4 & A5).
  exists a. split; auto.
  assert (cs' = cs) as -> by congruence. assert (cs2 = cs) as -> by congruence. rewrite A2, E1, <- Ecs. split; [|split; [auto|rewrite <- A2; auto]].
  rewrite A2, E1, <- Ecs in A5. destruct (current a); auto. exfalso. apply (f_equal length) in A5. rewrite !app_length in A5. cbn in A5. lia.
Qed.
(** The goroutines come to rest. *)
Lemma misled_less (T : Z -> Prop) x y : lens x -> all_peers x -> misled x y -> all_peers y /\ ((world_weight y < world_weight x)%nat \/ (world_weight y = world_weight x /\ lupd ult (map ths (wcores y)) (map ths (wcores x)))).
Proof.
  intros HL A H. assert (Hne : peers y <> peers x).
  { destruct H. cbn. intros E. apply (f_equal (fun l => l !! i)) in E. rewrite list_lookup_insert, H in E by (eapply lookup_lt_Some; eauto). discriminate E. }
  destruct (moved_start T x y HL H) as (j & _ & _ & _ & St & _). assert (A' : all_peers (moved j x)) by exact A. split; [exact (all_peers_step T _ _ A' (or_intror St))|].
  refine (wadvance_less T (moved j x) (moved j y) A' _). split; auto.
Qed.
Theorem stale_finite T sl ds n (f : nat -> world) : (sl < length ds)%nat -> rtc (races T) (boot sl ds n) (f 0%nat) -> ~ (forall n, wadvance T (f n) (f (S n)) \/ misled (f n) (f (S n))).
Proof.
  intros Hsl R H. assert (G0 : forall x y, rtc (races T) x y -> sized x /\ all_peers x -> sized y /\ all_peers y).
  { induction 1 as [|x y z St _ IH]; auto. intros [S1 S2]. apply IH. split; [eapply sized_races; eauto|]. destruct St as [St|St]; [eapply all_peers_step; eauto|apply (misled_less T x y (proj1 S1) S2 St)]. }
  assert (A : forall k, sized (f k) /\ all_peers (f k)).
  { intros k. apply (G0 (boot sl ds n)); [|split; [apply boot_sized; auto|apply all_peers_boot]]. induction k as [|k IH]; auto. eapply rtc_r; [exact IH|]. destruct (H k) as [[Hk _]|Hk]; [left; right; exact Hk|right; exact Hk]. }
  assert (L : forall k, (world_weight (f (S k)) < world_weight (f k))%nat \/ (world_weight (f (S k)) = world_weight (f k) /\ lupd ult (map ths (wcores (f (S k)))) (map ths (wcores (f k))))).
  { intros k. destruct (A k) as [[A1 _] A2]. destruct (H k) as [Hk|Hk]; [apply (wadvance_less T); auto|apply (misled_less T); auto]. }
  assert (G : forall w, forall k, world_weight (f k) = w -> False).
  { intros w. induction (lt_wf w) as [w _ IHw]. intros k E. remember (map ths (wcores (f k))) as l eqn:El. revert k E El.
    induction (lupd_wf ult ult_wf l) as [l _ IHl]. intros k E El.
    destruct (L k) as [Hl|[He Hl]]; [rewrite E in Hl; exact (IHw _ Hl (S k) eq_refl)|]. subst l. refine (IHl _ Hl (S k) _ eq_refl). congruence. }
  eapply (G _ 0%nat). reflexivity.
Qed.
(** ** From main *)
Import MainStart.
Lemma main_room sys fuel args c : main sys fuel args = Some (Serves c) -> 1 <= dbnum c <= 2 ^ 45.
Proof. intros H. assert (G : exists fuel, main sys fuel args = Some (Serves c)) by eauto. apply start_serves in G as (_ & _ & _ & G & _). exact G. Qed.
Theorem stale_as_main sys fuel args c T n x : main sys fuel args = Some (Serves c) -> rtc (races T) (boot 0 (replicate (Z.to_nat (dbnum c)) empty_db) n) x ->
  exists ks qs x', Forall (fun k => 0 <= k < dbnum c) ks /\ Forall2 selector ks qs /\ rtc (happens T) (boot 0 (replicate (Z.to_nat (dbnum c)) empty_db) (n + length ks)) x' /\ enlarged qs x x'.
Proof.
  intros Hm R. pose proof (main_room sys fuel args c Hm) as Hr. assert (2 ^ 45 <= max_int) by (vm_compute; discriminate).
  destruct (stale_as T 0 (replicate (Z.to_nat (dbnum c)) empty_db) n x) as (ks & qs & x' & H1 & H2); auto; [rewrite replicate_length; lia|unfold zlen; rewrite replicate_length; lia|].
  exists ks, qs, x'. split; auto. unfold zlen in H1. rewrite replicate_length, Z2Nat.id in H1 by lia. exact H1.
Qed.
Theorem stale_parts_main sys fuel args c (T : Z -> Prop) lim css x : main sys fuel args = Some (Serves c) -> (exists t, T t) -> (forall t, T t -> t <= lim) ->
  rtc (races T) (boot 0 (replicate (Z.to_nat (dbnum c)) empty_db) (length css)) x ->
  (forall i p, peers x !! i = Some p -> exists cs, css !! i = Some cs /\ asks (concat (given (lnk p))) cs) ->
  each locked css -> each (far_deadlines T lim) css ->
  exists m z0 z, clean_slate (Z.to_nat (dbnum c)) (length css + m) z0 /\ rtc (serves T) z0 z /\ holds x z.1 /\
    (forall i p, peers x !! i = Some p -> exists a cs rest, z.2 !! i = Some a /\ agrees p a /\
        css !! i = Some cs /\ cs = map fst (paid a) ++ match current a with Some t => [asked_for t] | None => [] end ++ rest) /\
    forall i a, (length css <= i)%nat -> z.2 !! i = Some a -> exists k, 0 <= k < dbnum c /\ a = mkAcc [([Some (B "select"); Some (fmt_int k)], ok)] None.
Proof.
  intros Hm. pose proof (main_room sys fuel args c Hm) as Hr. assert (2 ^ 45 <= max_int) by (vm_compute; discriminate).
  pose proof (stale_parts T lim (Z.to_nat (dbnum c)) css x ltac:(lia) ltac:(lia)) as G. rewrite Z2Nat.id in G by lia. exact G.
Qed.
Theorem stale_answered_main sys fuel args c (T : Z -> Prop) lim css x : main sys fuel args = Some (Serves c) -> (exists t, T t) -> (forall t, T t -> t <= lim) ->
  rtc (races T) (boot 0 (replicate (Z.to_nat (dbnum c)) empty_db) (length css)) x -> now_is x = Running -> (forall y, ~ wadvance T x y) -> ~ spins x ->
  (forall i p, peers x !! i = Some p -> stg p <> Away /\ exists cs, css !! i = Some cs /\ asks (concat (given (lnk p))) cs) ->
  each locked css -> each (far_deadlines T lim) css ->
  exists m z0 z, clean_slate (Z.to_nat (dbnum c)) (length css + m) z0 /\ rtc (serves T) z0 z /\ holds x z.1 /\
    (forall i p cs, peers x !! i = Some p -> css !! i = Some cs -> exists a, z.2 !! i = Some a /\ current a = None /\ map fst (paid a) = cs /\ replied (paid a) (written p)) /\
    forall i a, (length css <= i)%nat -> z.2 !! i = Some a -> exists k, 0 <= k < dbnum c /\ a = mkAcc [([Some (B "select"); Some (fmt_int k)], ok)] None.
Proof.
  intros Hm. pose proof (main_room sys fuel args c Hm) as Hr. assert (2 ^ 45 <= max_int) by (vm_compute; discriminate).
  pose proof (stale_answered T lim (Z.to_nat (dbnum c)) css x ltac:(lia) ltac:(lia)) as G. rewrite Z2Nat.id in G by lia. exact G.
Qed.
End WithParams.
