(** Goroutines that see any value of the counters: what all executions keep. *)
From Verif Require Export TallyProofs.
From Verif Require MainStart.

Section WithParams.
Context {P : Setup}.
Theorem tally_same T sl ds n x : (sl < length ds)%nat -> rtc (muddles T) (boot sl ds n) x -> no_keys_asked x -> exists x', rtc (races T) (boot sl ds n) x' /\ same_but_counts x x'.
Proof. intros H1 R NK. destruct (tally_like T sl ds n x H1 R NK) as (x' & R' & L). exists x'. split; auto. apply like_same. auto. Qed.
Lemma like_spins x x' : like_w x x' -> spins x' -> spins x.
Proof.
  intros (_ & _ & _ & _ & L) (j & e & u & Hj & Hu & Hh). destruct (Forall2_lookup_r _ _ _ _ _ L Hj) as (c & Hc & (_ & _ & L3)). apply elem_of_list_lookup in Hu as (i & Hi).
  destruct (Forall2_lookup_r _ _ _ _ _ L3 Hi) as (t & Ht & (_ & Q)). rewrite Hh in Q. exists j, c, t. split; auto. split; [eapply elem_of_list_lookup_2; eauto|]. inversion Q; auto.
Qed.
Lemma like_holds x x' st : like_w x x' -> holds x' st -> holds x st.
Proof.
  intros (L1 & _ & _ & _ & L) (H1 & H2 & H3). split; [congruence|]. split; [rewrite (Forall2_length _ _ _ L); auto|].
  intros j c M Hj HM key Hw. destruct (Forall2_lookup_l _ _ _ _ _ L Hj) as (c' & Hj' & ((D1 & D2) & K & _)). rewrite (H3 j c' M Hj' HM key); [|rewrite K; auto]. unfold stored. rewrite D1, D2. reflexivity.
Qed.
Theorem tally_no_panic T sl ds n x : (sl < length ds)%nat -> zlen ds <= max_int -> rtc (muddles T) (boot sl ds n) x ->
  (forall i p, peers x !! i = Some p -> exists ks t, reads_as (concat (given (lnk p))) ks t /\ t <> Fatal /\ forall ev, ev ∈ values None ks -> ~ fatal_value ev) ->
  (forall i p cmd, peers x !! i = Some p -> cmd ∈ handed (lnk p) -> panic_free cmd) -> no_keys_asked x -> now_is x <> Panicked.
Proof.
  intros H1 H2 R H3 H4 NK. destruct (tally_like T sl ds n x H1 R NK) as (x' & R' & L). pose proof L as (L1 & L2 & L3 & L4 & _). rewrite <- L4. apply (stale_no_panic T sl ds n x' H1 H2 R').
  - intros i p. rewrite L2. apply H3.
  - intros i p cmd. rewrite L2. apply H4.
Qed.
Theorem tally_served (T : Z -> Prop) now sl ds n x : T now -> (sl < length ds)%nat -> zlen ds <= max_int -> rtc (muddles T) (boot sl ds n) x -> no_keys_asked x -> now_is x = Running -> (forall y, ~ wadvance T x y) ->
  spins x \/ forall i p, peers x !! i = Some p -> stg p <> Away -> stg p = Served /\
    forall ks t, reads_as (concat (given (lnk p))) ks t -> map fst (log (lnk p)) = commands (values None ks) /\ replied (log (lnk p)) (written p) /\
      (hnd (lnk p) = HIdle /\ ended (lnk p) = None /\ t <> Fatal /\ (forall e, EvErr e ∉ values None ks) \/ exists e, hnd (lnk p) = HGone e /\ (ended (lnk p) <> None \/ EvErr e ∈ values None ks)).
Proof.
  intros Hnow H1 H2 R NK Hr Hn. destruct (tally_like T sl ds n x H1 R NK) as (x' & R' & L). pose proof L as (L1 & L2 & L3 & L4 & _).
  destruct (stale_served T now sl ds n x' Hnow H1 H2 R') as [H|H]; [congruence|eapply like_rests; eauto|left; eapply like_spins; eauto|right]. rewrite <- L2. exact H.
Qed.
Theorem tally_frames T sl ds n x : (sl < length ds)%nat -> zlen ds <= max_int -> rtc (muddles T) (boot sl ds n) x -> no_keys_asked x ->
  (forall i p cmd, peers x !! i = Some p -> cmd ∈ handed (lnk p) -> may_echo cmd -> crlf_free cmd) ->
  forall i p, peers x !! i = Some p -> frames (map snd (log (lnk p))) (written p).
Proof.
  intros H1 H2 R NK H3. destruct (tally_like T sl ds n x H1 R NK) as (x' & R' & L). pose proof L as (L1 & L2 & L3 & L4 & _). rewrite <- L2. apply (stale_frames T sl ds n x' H1 H2 R'). rewrite L2. exact H3.
Qed.
(** Commands in the bytes sent include those that have been handed over. *)
Lemma asked_locked T sl ds n css x : (sl < length ds)%nat -> rtc (muddles T) (boot sl ds n) x ->
  (forall i p, peers x !! i = Some p -> exists cs, css !! i = Some cs /\ asks (concat (given (lnk p))) cs) -> each locked css -> no_keys_asked x.
Proof.
  intros H1 R Ha Hl i p cmd Hi Hc. destruct (muddles_inv T sl ds n x H1 R) as [_ A]. destruct (Ha i p Hi) as (cs & Hcs & ks & t & Hr & ->).
  destruct (any_order (lnk p) ks t) as [rest E]; auto; [apply (A i p Hi)|]. apply (Hl (commands (values None ks)) cmd); [eapply elem_of_list_lookup_2; eauto|]. rewrite E. apply elem_of_app. auto.
Qed.
Theorem tally_parts (T : Z -> Prop) lim dbs css x : (1 <= dbs)%nat -> Z.of_nat dbs <= max_int -> (exists t, T t) -> (forall t, T t -> t <= lim) ->
  rtc (muddles T) (boot 0 (replicate dbs empty_db) (length css)) x ->
  (forall i p, peers x !! i = Some p -> exists cs, css !! i = Some cs /\ asks (concat (given (lnk p))) cs) ->
  each locked css -> each (far_deadlines T lim) css ->
  exists m z0 z, clean_slate dbs (length css + m) z0 /\ rtc (serves T) z0 z /\ holds x z.1 /\
    (forall i p, peers x !! i = Some p -> exists a cs rest, z.2 !! i = Some a /\ agrees p a /\
        css !! i = Some cs /\ cs = map fst (paid a) ++ match current a with Some t => [asked_for t] | None => [] end ++ rest) /\
    forall i a, (length css <= i)%nat -> z.2 !! i = Some a -> exists k, 0 <= k < Z.of_nat dbs /\ a = mkAcc [([Some (B "select"); Some (fmt_int k)], ok)] None.
Proof.
  intros Hd Hm Ht HT R Ha Hl Hf. assert (H1 : (0 < length (replicate dbs empty_db))%nat) by (rewrite replicate_length; lia).
  destruct (tally_like T 0 _ _ x H1 R (asked_locked T 0 _ _ css x H1 R Ha Hl)) as (x' & R' & L). pose proof L as (L1 & L2 & L3 & L4 & _). rewrite <- L2 in Ha.
  destruct (stale_parts T lim dbs css x' Hd Hm Ht HT R' Ha Hl Hf) as (m & z0 & z & G1 & G2 & G3 & G4 & G5). exists m, z0, z. split; auto. split; auto. split; [eapply like_holds; eauto|]. rewrite <- L2. auto.
Qed.
Theorem tally_answered (T : Z -> Prop) lim dbs css x : (1 <= dbs)%nat -> Z.of_nat dbs <= max_int -> (exists t, T t) -> (forall t, T t -> t <= lim) ->
  rtc (muddles T) (boot 0 (replicate dbs empty_db) (length css)) x -> now_is x = Running -> (forall y, ~ wadvance T x y) -> ~ spins x ->
  (forall i p, peers x !! i = Some p -> stg p <> Away /\ exists cs, css !! i = Some cs /\ asks (concat (given (lnk p))) cs) ->
  each locked css -> each (far_deadlines T lim) css ->
  exists m z0 z, clean_slate dbs (length css + m) z0 /\ rtc (serves T) z0 z /\ holds x z.1 /\
    (forall i p cs, peers x !! i = Some p -> css !! i = Some cs -> exists a, z.2 !! i = Some a /\ current a = None /\ map fst (paid a) = cs /\ replied (paid a) (written p)) /\
    forall i a, (length css <= i)%nat -> z.2 !! i = Some a -> exists k, 0 <= k < Z.of_nat dbs /\ a = mkAcc [([Some (B "select"); Some (fmt_int k)], ok)] None.
Proof.
  intros Hd Hm Ht HT R Hr Hn Hsp Ha Hl Hf. assert (H1 : (0 < length (replicate dbs empty_db))%nat) by (rewrite replicate_length; lia).
  assert (NK : no_keys_asked x) by (apply (asked_locked T 0 _ _ css x H1 R); [intros i p Hi; apply (Ha i p Hi)|exact Hl]).
  destruct (tally_like T 0 _ _ x H1 R NK) as (x' & R' & L). pose proof L as (L1 & L2 & L3 & L4 & _). rewrite <- L2 in Ha.
  destruct (stale_answered T lim dbs css x' Hd Hm Ht HT R') as (m & z0 & z & G1 & G2 & G3 & G4 & G5); auto; [congruence|eapply like_rests; eauto|intros Hs; apply Hsp; eapply like_spins; eauto|].
  exists m, z0, z. split; auto. split; auto. split; [eapply like_holds; eauto|]. rewrite <- L2. auto.
Qed.
Theorem tally_finite T sl ds n (f : nat -> world) : (sl < length ds)%nat -> rtc (muddles T) (boot sl ds n) (f 0%nat) ->
  ~ (forall n, wadvance T (f n) (f (S n)) \/ misled (f n) (f (S n)) \/ miscounts (f n) (f (S n))).
Proof.
  intros Hsl R H.
  assert (A : forall k, lens (f k) /\ all_peers (f k)).
  { intros k. apply (muddles_inv T sl ds n); auto. induction k as [|k IH]; auto. eapply rtc_r; [exact IH|]. destruct (H k) as [[Hk _]|[Hk|Hk]]; [left; left; right; exact Hk|left; right; exact Hk|right; exact Hk]. }
  assert (L : forall k, (world_weight (f (S k)) < world_weight (f k))%nat \/ (world_weight (f (S k)) = world_weight (f k) /\ lupd ult (map ths (wcores (f (S k)))) (map ths (wcores (f k))))).
  { intros k. destruct (A k) as [A1 A2]. destruct (H k) as [Hk|[Hk|Hk]]; [apply (wadvance_less T); auto|apply (misled_less T); auto|].
    right. destruct Hk as [sl' cs ps sg j c i k0 z Hj Hi]. split; [reflexivity|]. cbn [wcores]. exists j, (ths c), (<[i := mkT (k0 z) false]> (ths c)).
    split; [rewrite list_lookup_fmap, Hj; auto|]. split; [|rewrite list_fmap_insert; auto]. exists i, (mkT (CntLoad k0) false), (mkT (k0 z) false). split; auto. split; auto. left. cbn. constructor. }
  assert (G : forall w, forall k, world_weight (f k) = w -> False).
  { intros w. induction (lt_wf w) as [w _ IHw]. intros k E. remember (map ths (wcores (f k))) as l eqn:El. revert k E El.
    induction (lupd_wf ult ult_wf l) as [l _ IHl]. intros k E El.
    destruct (L k) as [Hl|[He Hl]]; [rewrite E in Hl; exact (IHw _ Hl (S k) eq_refl)|]. subst l. refine (IHl _ Hl (S k) _ eq_refl). congruence. }
  eapply (G _ 0%nat). reflexivity.
Qed.
(** ** From main *)
Import MainStart.
Lemma main_dbs sys fuel args c : main sys fuel args = Some (Serves c) -> (1 <= Z.to_nat (dbnum c))%nat /\ Z.of_nat (Z.to_nat (dbnum c)) = dbnum c /\ dbnum c <= max_int /\ (0 < length (replicate (Z.to_nat (dbnum c)) empty_db))%nat.
Proof. intros Hm. pose proof (main_room sys fuel args c Hm) as Hr. assert (2 ^ 45 <= max_int) by (vm_compute; discriminate). rewrite replicate_length. lia. Qed.
Theorem tally_main sys fuel args c T n x : main sys fuel args = Some (Serves c) -> rtc (muddles T) (boot 0 (replicate (Z.to_nat (dbnum c)) empty_db) n) x -> no_keys_asked x ->
  exists ks qs x' x'', Forall (fun k => 0 <= k < dbnum c) ks /\ Forall2 selector ks qs /\ rtc (happens T) (boot 0 (replicate (Z.to_nat (dbnum c)) empty_db) (n + length ks)) x'' /\ same_but_counts x x' /\ enlarged qs x' x''.
Proof.
  intros Hm R NK. destruct (main_dbs sys fuel args c Hm) as (_ & _ & _ & H1). destruct (tally_same T 0 _ n x H1 R NK) as (x' & R' & S).
  destruct (stale_as_main sys fuel args c T n x' Hm R') as (ks & qs & x'' & G1 & G2 & G3 & G4). exists ks, qs, x', x''. auto.
Qed.
Theorem tally_parts_main sys fuel args c (T : Z -> Prop) lim css x : main sys fuel args = Some (Serves c) -> (exists t, T t) -> (forall t, T t -> t <= lim) ->
  rtc (muddles T) (boot 0 (replicate (Z.to_nat (dbnum c)) empty_db) (length css)) x ->
  (forall i p, peers x !! i = Some p -> exists cs, css !! i = Some cs /\ asks (concat (given (lnk p))) cs) ->
  each locked css -> each (far_deadlines T lim) css ->
  exists m z0 z, clean_slate (Z.to_nat (dbnum c)) (length css + m) z0 /\ rtc (serves T) z0 z /\ holds x z.1 /\
    (forall i p, peers x !! i = Some p -> exists a cs rest, z.2 !! i = Some a /\ agrees p a /\
        css !! i = Some cs /\ cs = map fst (paid a) ++ match current a with Some t => [asked_for t] | None => [] end ++ rest) /\
    forall i a, (length css <= i)%nat -> z.2 !! i = Some a -> exists k, 0 <= k < dbnum c /\ a = mkAcc [([Some (B "select"); Some (fmt_int k)], ok)] None.
Proof.
  intros Hm Ht HT R Ha Hl Hf. destruct (main_dbs sys fuel args c Hm) as (D1 & D2 & D3 & D4).
  destruct (tally_parts T lim (Z.to_nat (dbnum c)) css x D1 ltac:(lia) Ht HT R Ha Hl Hf) as (m & z0 & z & H). rewrite D2 in H. exists m, z0, z. exact H.
Qed.
Theorem tally_answered_main sys fuel args c (T : Z -> Prop) lim css x : main sys fuel args = Some (Serves c) -> (exists t, T t) -> (forall t, T t -> t <= lim) ->
  rtc (muddles T) (boot 0 (replicate (Z.to_nat (dbnum c)) empty_db) (length css)) x -> now_is x = Running -> (forall y, ~ wadvance T x y) -> ~ spins x ->
  (forall i p, peers x !! i = Some p -> stg p <> Away /\ exists cs, css !! i = Some cs /\ asks (concat (given (lnk p))) cs) ->
  each locked css -> each (far_deadlines T lim) css ->
  exists m z0 z, clean_slate (Z.to_nat (dbnum c)) (length css + m) z0 /\ rtc (serves T) z0 z /\ holds x z.1 /\
    (forall i p cs, peers x !! i = Some p -> css !! i = Some cs -> exists a, z.2 !! i = Some a /\ current a = None /\ map fst (paid a) = cs /\ replied (paid a) (written p)) /\
    forall i a, (length css <= i)%nat -> z.2 !! i = Some a -> exists k, 0 <= k < dbnum c /\ a = mkAcc [([Some (B "select"); Some (fmt_int k)], ok)] None.
Proof.
  intros Hm Ht HT R Hr Hn Hs Ha Hl Hf. destruct (main_dbs sys fuel args c Hm) as (D1 & D2 & D3 & D4).
  destruct (tally_answered T lim (Z.to_nat (dbnum c)) css x D1 ltac:(lia) Ht HT R Hr Hn Hs Ha Hl Hf) as (m & z0 & z & H). rewrite D2 in H. exists m, z0, z. exact H.
Qed.
End WithParams.
