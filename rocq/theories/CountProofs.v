(** Concurrent increments. *)
From Verif Require Export LinMain Ints History.

Section WithParams.
Context {P : Setup}.
Lemma inc_step k cmd i now D r D' v : increments k cmd i -> counts_at D k v -> step now D cmd (Done r D') ->
  r = RInt (wrap64 (v + i)) /\ counts_at D' k (wrap64 (v + i)).
Proof.
  intros Hi (s & Hd & Hv & He) R.
  assert (Hgo : forall f bad, f v = v + i -> wp (eq now) D (delete_expired_key k ;;; counter_body k f bad) (fun out => forall r D', out = Done r D' ->
    r = RInt (wrap64 (v + i)) /\ counts_at D' k (wrap64 (v + i)))).
  { intros f bad Hf. unfold delete_expired_key, check_expire. cbn. rewrite He. cbn. rewrite Hd. rewrite Hv. cbn. rewrite Hd. rewrite Hf. cbn.
    intros r0 D0 [= <- <-]. split; auto. eexists. split; [cbn; apply lookup_insert|]. split; [|exact He]. apply atoi_fmt_int. apply wrap64_range. }
  unfold step in R.
  destruct Hi as [n k' Hn <-|n k' Hn <-|n k' a i Hn <- Ha|n k' a i Hn <- Ha]; erewrite (exec_named _ _ _ _ Hn) in R by reflexivity.
  - cbn [incr_string] in R. refine (wp_sound _ _ _ _ _ R (Hgo _ _ _) _ _ eq_refl); reflexivity.
  - cbn [decr_string] in R. refine (wp_sound _ _ _ _ _ R (Hgo _ _ _) _ _ eq_refl); reflexivity.
  - unfold incrby_string in R. rewrite Ha in R. refine (wp_sound _ _ _ _ _ R (Hgo _ _ _) _ _ eq_refl); reflexivity.
  - unfold decrby_string in R. rewrite Ha in R. refine (wp_sound _ _ _ _ _ R (Hgo _ _ _) _ _ eq_refl); reflexivity.
Qed.
Ltac not_named Hn := unfold cmd_is; unfold named in Hn; rewrite Hn; vm_compute; reflexivity.
Lemma inc_names k cmd i : increments k cmd i -> key_args cmd = [k] /\ one_step cmd /\ forall T lim, far_deadlines T lim cmd.
Proof.
  intros Hi.
  assert (H : forall n args, named n "incr" \/ named n "decr" \/ named n "incrby" \/ named n "decrby" -> key_args (n :: args) = key_args (n :: args) /\ one_step (n :: args) /\ forall T lim, far_deadlines T lim (n :: args)).
  { intros n args Hn. split; auto.
    assert (Hc : Forall (fun s => cmd_is s (n :: args) = false) ["keys"; "setnx"; "del"; "exists"; "mget"; "expire"; "setex"; "set"]%string).
    { destruct Hn as [Hn|[Hn|[Hn|Hn]]]; repeat (apply List.Forall_cons; [not_named Hn|]); constructor. }
    repeat (match goal with H : Forall _ (_ :: _) |- _ => inversion H; clear H; subst end).
    split; [split; [auto|split; [auto|intros [?|[?|?]]; congruence]]|]. intros T lim. split; [intros [?|?]; congruence|intros; congruence]. }
  destruct Hi as [n k' Hn <-|n k' Hn <-|n k' a i Hn <- Ha|n k' a i Hn <- Ha]; (split; [unfold key_args; unfold named in Hn; rewrite Hn; reflexivity|apply H; auto]).
Qed.

Definition tasks (k : bytes) (c : list rdata * list command) (l : list Z) : Prop := Forall2 (increments k) c.2 l.
Lemma sum_all_cons l iss : sum_all (l :: iss) = foldr Z.add 0 l + sum_all iss.
Proof. unfold sum_all. cbn. rewrite foldr_app. generalize (foldr Z.add 0 (concat iss)). intros z. induction l; cbn; lia. Qed.
Lemma sum_all_insert iss i x l : iss !! i = Some (x :: l) -> sum_all (<[i := l]> iss) + x = sum_all iss.
Proof.
  revert i. induction iss as [|l0 iss IH]; intros [|i] H; cbn in H; try discriminate; simpl; rewrite !sum_all_cons.
  - injection H as ->. cbn. lia.
  - specialize (IH _ H). lia.
Qed.
Lemma turns_count (T : Z -> Prop) k z z' : rtc (turn T) z z' -> forall v iss, counts_at z.1 k v -> Forall2 (tasks k) z.2 iss ->
  exists v' iss', counts_at z'.1 k v' /\ Forall2 (tasks k) z'.2 iss' /\ wrap64 (v' + sum_all iss') = wrap64 (v + sum_all iss).
Proof.
  induction 1 as [z|z z1 z' Hs _ IH]; intros v iss Hc HF; [exists v, iss; auto|].
  inversion Hs as [d cl i acc cmd rest now r d' Hi Ht Hr]; subst. cbn in Hc, HF.
  destruct (Forall2_lookup_l _ _ _ _ _ HF Hi) as (l & Hl & Hlt). unfold tasks in Hlt. cbn in Hlt. inversion Hlt as [|? x ? l' Hx Hl']; subst.
  destruct (inc_step _ _ _ _ _ _ _ _ Hx Hc Hr) as [_ Hc'].
  destruct (IH (wrap64 (v + x)) (<[i := l']> iss)) as (v' & iss' & H1 & H2 & H3); auto.
  { cbn. apply Forall2_insert; auto. }
  exists v', iss'. split; auto. split; auto. rewrite H3, wrap64_add_l. f_equal. pose proof (sum_all_insert _ _ _ _ Hl). lia.
Qed.
Lemma sum_all_nil (iss : list (list Z)) : Forall (fun l => l = []) iss -> sum_all iss = 0.
Proof. induction 1 as [|l iss -> _ IH]; auto. Qed.
Lemma counters_end (T : Z -> Prop) d cs iss c rss k v : counts_at d k v -> Forall2 (Forall2 (increments k)) cs iss ->
  rtc (cstep T) (clients d cs) c -> map tcode (ths c) = map Ret rss ->
  exists D, rtc (turn (fun t => T t \/ t = 0)) (d, before cs) (D, served rss) /\ dict D = dict (cdb c) /\ exps D = exps (cdb c).
Proof.
  intros Hc HF R Hr. destruct (rtc_bounded _ _ _ R) as (lim & R').
  assert (Hcmd : forall cmds cmd, cmds ∈ cs -> cmd ∈ cmds -> exists i, increments k cmd i).
  { intros cmds cmd H1 H2. apply elem_of_list_lookup in H1 as (i & H1). destruct (Forall2_lookup_l _ _ _ _ _ HF H1) as (l & _ & Hl).
    apply elem_of_list_lookup in H2 as (j & H2). destruct (Forall2_lookup_l _ _ _ _ _ Hl H2) as (x & _ & Hx). eauto. }
  destruct (linearizable (fun t => (T t /\ t <= lim) \/ t = 0) (Z.max 0 lim) d cs c rss) as (D & H1 & H2); auto.
  - exists 0. auto.
  - intros t [[_ ?] | ->]; lia.
  - intros cmds cmd Hx Hy. destruct (Hcmd _ _ Hx Hy) as (i & Hi). eapply inc_names; eauto.
  - intros cmds cmd Hx Hy. destruct (Hcmd _ _ Hx Hy) as (i & Hi). eapply inc_names; eauto.
  - intros key t (cmds & cmd & Hx & Hy & Hk). destruct (Hcmd _ _ Hx Hy) as (i & Hi). destruct (inc_names _ _ _ Hi) as [E _]. rewrite E in Hk.
    apply elem_of_list_singleton in Hk as ->. destruct Hc as (s & _ & _ & E'). congruence.
  - clear -R'. induction R'; [apply rtc_refl|eapply rtc_l; eauto]. eapply cstep_weaken; [|eassumption]. cbn. auto.
  - exists D. split; auto. clear -H1. induction H1 as [|z z1 z' Hs _ IH]; [apply rtc_refl|eapply rtc_l; [|exact IH]]. inversion Hs as [d0 cl i acc cmd rest now r d' Hi Ht Hr]; subst. eapply Turn with (now := now); eauto. cbn in Ht. tauto.
Qed.
Theorem counters (T : Z -> Prop) d cs iss c rss k v : counts_at d k v -> Forall2 (Forall2 (increments k)) cs iss ->
  rtc (cstep T) (clients d cs) c -> map tcode (ths c) = map Ret rss -> counts_at (cdb c) k (wrap64 (v + sum_all iss)).
Proof.
  intros Hc HF R Hr. destruct (counters_end T d cs iss c rss k v Hc HF R Hr) as (D & RT & E1 & E2).
  destruct (turns_count _ k _ _ RT v iss) as (v' & iss' & H1 & H2 & H3); auto.
  { cbn. clear -HF. induction HF; constructor; auto. }
  assert (E : sum_all iss' = 0).
  { apply sum_all_nil. clear -H2. cbn in H2. revert iss' H2. induction rss as [|rs rss IH]; intros iss' H; inversion H as [|? ? ? ? Ht H']; subst; constructor; auto.
    unfold tasks in Ht. cbn in Ht. inversion Ht. auto. }
  rewrite E in H3. rewrite Z.add_0_r in H3. rewrite <- H3.
  assert (Hw : wrap64 v' = v').
  { destruct H1 as (s & _ & Hv & _). apply wrap64_small. apply atoi_iff in Hv as [_ Hf]. unfold fits64, min_int, max_int in *. lia. }
  rewrite Hw. cbn in H1. destruct H1 as (s & H1 & Hv & H1'). exists s. rewrite <- E1, <- E2. auto.
Qed.

(** The replies to concurrent INCRs are the numbers in between, each once. *)
Lemma concat_snoc (cl : list (list rdata * list command)) i acc todo r todo' : cl !! i = Some (acc, todo) ->
  concat (map fst (<[i := (acc ++ [r], todo')]> cl)) ≡ₚ r :: concat (map fst cl).
Proof.
  revert i. induction cl as [|[a t] cl IH]; intros [|i] H; cbn in H; try discriminate; simpl.
  - injection H as -> ->. rewrite <- app_assoc. cbn. rewrite <- Permutation_middle. auto.
  - rewrite (IH _ H). rewrite <- Permutation_middle. auto.
Qed.
Lemma concat_tail (cl : list (list rdata * list command)) i acc cmd rest acc' : cl !! i = Some (acc, cmd :: rest) ->
  length (concat (map snd cl)) = S (length (concat (map snd (<[i := (acc', rest)]> cl)))).
Proof.
  revert i. induction cl as [|[a t] cl IH]; intros [|i] H; cbn in H; try discriminate; simpl; rewrite !app_length.
  - injection H as -> ->. cbn. auto.
  - rewrite (IH _ H). lia.
Qed.
Definition nth_reply (v j : Z) : rdata := RInt (wrap64 (v + j)).
Lemma turns_replies (T : Z -> Prop) k v z z' : rtc (turn T) z z' -> forall m : nat, counts_at z.1 k (wrap64 (v + Z.of_nat m)) ->
  (forall i acc todo, z.2 !! i = Some (acc, todo) -> Forall (fun cmd => increments k cmd 1) todo) ->
  concat (map fst z.2) ≡ₚ map (nth_reply v) (seqZ 1 (Z.of_nat m)) ->
  exists m' : nat, (m' + length (concat (map snd z'.2)) = m + length (concat (map snd z.2)))%nat /\ concat (map fst z'.2) ≡ₚ map (nth_reply v) (seqZ 1 (Z.of_nat m')).
Proof.
  induction 1 as [z|z z1 z' Hs _ IH]; intros m Hc HF HR; [exists m; auto|].
  inversion Hs as [d cl i acc cmd rest now r d' Hi Ht Hr]; subst. cbn in Hc, HF, HR. pose proof (HF _ _ _ Hi) as HF0. inversion HF0 as [|? ? Hx HF1]; subst.
  destruct (inc_step _ _ _ _ _ _ _ _ Hx Hc Hr) as [-> Hc']. rewrite wrap64_add_l in Hc', Hr. rewrite wrap64_add_l in IH.
  replace (v + Z.of_nat m + 1) with (v + Z.of_nat (S m)) in * by lia.
  destruct (IH (S m)) as (m' & H1 & H2); [exact Hc'|..].
  - cbn. intros j acc' todo Hj. destruct (decide (j = i)) as [->|]; [|rewrite list_lookup_insert_ne in Hj by auto; eapply HF; eauto].
    rewrite list_lookup_insert in Hj by (eapply lookup_lt_Some; eauto). injection Hj as <- <-. auto.
  - cbn [fst snd]. rewrite (concat_snoc _ _ _ _ _ _ Hi). rewrite HR. rewrite Nat2Z.inj_succ. unfold Z.succ. rewrite seqZ_app by lia. rewrite map_app, Permutation_app_comm.
    change (seqZ (1 + Z.of_nat m) 1) with [Z.of_nat 0 + (1 + Z.of_nat m)]. cbn [map app]. unfold nth_reply at 2. replace (v + (Z.of_nat 0 + (1 + Z.of_nat m))) with (v + (Z.of_nat m + 1)) by lia. auto.
  - exists m'. split; auto. rewrite H1. cbn [fst snd]. rewrite (concat_tail _ _ _ _ _ (acc ++ [nth_reply v (Z.of_nat (S m))]) Hi). unfold nth_reply. lia.
Qed.
Theorem incr_replies (T : Z -> Prop) d cs c rss k v : counts_at d k v -> each (fun cmd => increments k cmd 1) cs ->
  rtc (cstep T) (clients d cs) c -> map tcode (ths c) = map Ret rss ->
  concat rss ≡ₚ map (nth_reply v) (seqZ 1 (Z.of_nat (length (concat cs)))).
Proof.
  intros Hc HE R Hr.
  assert (HF : Forall2 (Forall2 (increments k)) cs (map (map (fun _ => 1)) cs)).
  { apply Forall2_fmap_r, Forall_Forall2_diag, Forall_forall. intros cmds Hx. apply elem_of_list_In in Hx. apply Forall2_fmap_r, Forall_Forall2_diag, Forall_forall. intros cmd Hy. apply elem_of_list_In in Hy. eapply HE; eauto. }
  destruct (counters_end T d cs _ c rss k v Hc HF R Hr) as (D & RT & _).
  destruct (turns_replies _ k v _ _ RT 0%nat) as (m & H1 & H2).
  - cbn. rewrite Z.add_0_r. rewrite wrap64_small; auto. destruct Hc as (s & _ & Hv & _). apply atoi_iff in Hv as [_ Hf]. unfold fits64, min_int, max_int in *. lia.
  - cbn. intros i acc todo Hi. apply list_lookup_fmap_inv in Hi as (cmds & E & Hi). injection E as -> ->. apply elem_of_list_lookup_2 in Hi.
    apply Forall_forall. intros cmd Hy. apply elem_of_list_In in Hy. eapply HE; eauto.
  - cbn. unfold before. rewrite map_map. cbn. clear. induction cs; auto.
  - cbn in H1, H2. unfold served, before in *. rewrite !map_map in H1. rewrite map_map in H2. cbn in H1, H2. rewrite !map_id in *.
    assert (E : length (concat (map (fun _ : list rdata => [] : list command) rss)) = 0%nat) by (clear; induction rss; auto). rewrite E in H1.
    rewrite Nat.add_0_r in H1. rewrite H1 in H2. exact H2.
Qed.
End WithParams.
