(** The reference holds: hashes. *)
From Verif Require Export RefStrings.

Section WithParams.
Context {P : Setup}.

Lemma hget_meets n args now d : named n "hget" -> Inv d -> meets now d (n :: args) (ref_of "hget" args).
Proof.
  intros Hn HI. open_ref. destruct args as [|k [|f [|? ?]]]; try refuse Hn.
  apply meets_plain; [apply hget_ok| |nodl Hn]; auto.
Qed.
Lemma hexists_meets n args now d : named n "hexists" -> Inv d -> meets now d (n :: args) (ref_of "hexists" args).
Proof.
  intros Hn HI. open_ref. destruct args as [|k [|f [|? ?]]]; try refuse Hn.
  apply meets_plain; [apply hexists_ok| |nodl Hn]; auto.
Qed.
Lemma hlen_meets n args now d : named n "hlen" -> Inv d -> meets now d (n :: args) (ref_of "hlen" args).
Proof.
  intros Hn HI. open_ref. destruct args as [|k [|f ?]]; try refuse Hn.
  apply meets_plain; [apply hlen_ok| |nodl Hn]; auto.
Qed.
Lemma hstrlen_meets n args now d : named n "hstrlen" -> Inv d -> meets now d (n :: args) (ref_of "hstrlen" args).
Proof.
  intros Hn HI. open_ref. destruct args as [|k [|f [|? ?]]]; try refuse Hn.
  apply meets_plain; [apply hstrlen_ok| |nodl Hn]; auto.
Qed.
Lemma hmget_meets n args now d : named n "hmget" -> Inv d -> meets now d (n :: args) (ref_of "hmget" args).
Proof.
  intros Hn HI. open_ref. destruct args as [|k [|f fs]]; try refuse Hn.
  apply meets_plain; [apply hmget_ok| |nodl Hn]; auto.
Qed.
Lemma hgetall_meets n args now d : named n "hgetall" -> Inv d -> meets now d (n :: args) (ref_of "hgetall" args).
Proof.
  intros Hn HI. open_ref. destruct args as [|k [|f ?]]; try refuse Hn.
  apply meets_plain; [apply hgetall_ok| |nodl Hn]; auto.
Qed.
Lemma hkeys_meets n args now d : named n "hkeys" -> Inv d -> meets now d (n :: args) (ref_of "hkeys" args).
Proof.
  intros Hn HI. open_ref. destruct args as [|k [|f ?]]; try refuse Hn.
  apply meets_plain; [apply hkeys_ok| |nodl Hn]; auto.
Qed.
Lemma hvals_meets n args now d : named n "hvals" -> Inv d -> meets now d (n :: args) (ref_of "hvals" args).
Proof.
  intros Hn HI. open_ref. destruct args as [|k [|f ?]]; try refuse Hn.
  apply meets_plain; [apply hvals_ok| |nodl Hn]; auto.
Qed.
Lemma hdel_meets n args now d : named n "hdel" -> Inv d -> meets now d (n :: args) (ref_of "hdel" args).
Proof.
  intros Hn HI. open_ref. destruct args as [|k [|f fs]]; try refuse Hn.
  apply meets_plain; [apply (hdel_ok n k (f :: fs))| |nodl Hn]; auto.
Qed.
Lemma hsetnx_meets n args now d : named n "hsetnx" -> Inv d -> meets now d (n :: args) (ref_of "hsetnx" args).
Proof.
  intros Hn HI. open_ref. destruct args as [|k [|f [|v [|? ?]]]]; try refuse Hn.
  apply meets_plain; [apply hsetnx_ok| |nodl Hn]; auto.
Qed.
Lemma hincrby_meets n args now d : named n "hincrby" -> Inv d -> meets now d (n :: args) (ref_of "hincrby" args).
Proof.
  intros Hn HI. open_ref. destruct args as [|k [|f [|a [|? ?]]]]; try refuse Hn.
  destruct (atoi (str a)) eqn:Ea; (apply meets_plain; [(apply hincrby_ok || apply hincrby_bad)| |nodl Hn]); auto.
Qed.
Lemma hincrbyfloat_meets n args now d : named n "hincrbyfloat" -> Inv d -> meets now d (n :: args) (ref_of "hincrbyfloat" args).
Proof.
  intros Hn HI. open_ref. destruct args as [|k [|f [|a [|? ?]]]]; try refuse Hn.
  destruct (parse_float (str a)) eqn:Ea; (apply meets_plain; [(apply hincrbyfloat_ok || apply hincrbyfloat_bad)| |nodl Hn]); auto.
Qed.
Lemma in_pairs_odd l : in_pairs l = None -> Nat.odd (length l) = true.
Proof.
  revert l. fix IH 1. intros [|f [|v r]]; cbn [in_pairs length]; [discriminate|reflexivity|].
  destruct (in_pairs r) eqn:E; [discriminate|]. intros _. rewrite Nat.odd_succ_succ. exact (IH r E).
Qed.
Lemma hset_args_meets now d n k l (ex : command -> prog rdata) reply s : named n s -> lookup_cmd (B s) = Some ex ->
  (forall cmd, ex cmd = hset_common cmd reply) -> Inv d -> meets now d (n :: k :: l) (hset_args k l reply).
Proof.
  intros Hn Hl He HI. unfold hset_args.
  assert (Hx : exec_in_db (n :: k :: l) = hset_common (n :: k :: l) reply) by (rewrite (exec_named _ _ _ _ Hn Hl); apply He).
  destruct (in_pairs l) as [[|p ps]|] eqn:E.
  - apply in_pairs_flat in E as ->. apply meets_say. rewrite Hx. split; auto using sim_refl.
  - apply in_pairs_flat in E as ->. apply meets_on. rewrite Hx. apply oks_done, hset_wp; auto.
  - apply meets_say. rewrite Hx. apply in_pairs_odd in E. unfold hset_common. destruct l as [|f [|v r]]; try (split; auto using sim_refl).
    cbn [length] in *. rewrite !Nat.odd_succ_succ in *. rewrite E. split; auto using sim_refl.
Qed.
Lemma hset_meets n args now d : named n "hset" -> Inv d -> meets now d (n :: args) (ref_of "hset" args).
Proof.
  intros Hn HI. open_ref. destruct args as [|k l]; [refuse Hn|].
  eapply (hset_args_meets now d n k l hset_hash); eauto.
Qed.
Lemma hmset_meets n args now d : named n "hmset" -> Inv d -> meets now d (n :: args) (ref_of "hmset" args).
Proof.
  intros Hn HI. open_ref. destruct args as [|k l]; [refuse Hn|].
  eapply (hset_args_meets now d n k l hmset_hash); eauto.
Qed.

(** ** Random fields *)
Lemma random_draws sz keys count d now (f : list bytes -> prog rdata) (Q : rdata -> db -> Prop) :
  1 <= sz -> NoDup keys -> min_int <= count ->
  (forall l, draws keys count l -> wp (eq now) d (f l) (oks Q)) ->
  wp (eq now) d (pbind (random_keys sz keys count) f) (oks Q).
Proof.
  intros Hsz Hnd Hmin H. unfold draws in H. destruct (decide (keys = [])) as [->|Hne].
  { unfold random_keys. change (zlen [] =? 0) with true. rewrite orb_true_r. apply H. auto. }
  destruct (Z.le_gt_cases (- count * sz) (2 ^ 48)) as [Hc|Hc].
  { apply random_keys_wp; auto. }
  assert (count < 0) by nia. unfold random_keys. rewrite (proj2 (Z.eqb_neq count 0)) by lia.
  rewrite (proj2 (Z.eqb_neq (zlen keys) 0)) by (destruct keys; [congruence|unfold zlen; cbn [length]; lia]). cbn [orb].
  rewrite (proj2 (Z.ltb_ge 0 count)) by lia.
  assert (Hm : make_ok (wrap64 (- count)) sz = false).
  { unfold make_ok. destruct (Z.eq_dec count min_int) as [->|]; [reflexivity|].
    rewrite wrap64_small by (unfold min_int, max_int in *; lia). apply andb_false_iff. right. apply Z.leb_gt. lia. }
  rewrite Hm. exact I.
Qed.
Lemma hrand_draws now d k count wv : Inv d -> min_int <= count -> expired now d (str k) = false ->
  wp (eq now) d (hrandfield_run k count wv) (oks (fun r d' => ref_random count wv now (view now d (str k)) r (raw d' (str k)) /\
       forall k', k' <> str k -> raw d' k' = raw d k')).
Proof.
  intros HI Hmin He. unfold hrandfield_run, ref_random, hash_reads. rewrite wp_lock_bare, wp_dict_get. rewrite view_notexpired by auto.
  pose proof (raw_dict d (str k) _ eq_refl) as HD.
  destruct (raw d (str k)) as [[[s|h|l|s] dl]|] eqn:Er; rewrite HD; cbn [wp oks]; rewrite ?Er; auto.
  destruct (Z.eqb_spec count 1) as [->|Hc].
  - apply random_draws; [lia|apply nodup_fields|auto|]. intros l Hl. destruct l as [|x l]; [exact I|]. cbn [wp oks]. rewrite Er. eauto 8.
  - destruct wv; (apply random_draws; [lia|apply nodup_fields|auto|]); intros l Hl; cbn [wp oks]; rewrite Er; split; auto; split; auto; exists l; split; auto.
Qed.
Lemma hrandfield_meets n args now d : named n "hrandfield" -> Inv d -> meets now d (n :: args) (ref_of "hrandfield" args).
Proof.
  intros Hn HI. open_ref. destruct args as [|k [|a [|w [|? ?]]]]; try refuse Hn.
  - destruct (expired now d (str k)) eqn:He; apply meets_on; exec_cmd Hn; unfold hrandfield_hash.
    + rewrite wp_purge, He. split; [|intros; rawsimp; auto]. rewrite view_expired by auto. rawsimp. split; auto.
    + rewrite wp_purge, He. apply hrand_draws; auto. unfold min_int; lia.
  - apply meets_gone; auto; intros He.
    { apply meets_say. exec_cmd Hn. unfold hrandfield_hash. apply purge_gone; auto. }
    unfold int, int_or. destruct (atoi (str a)) as [c|] eqn:Ea.
    + apply meets_on. exec_cmd Hn. unfold hrandfield_hash. rewrite Ea. apply purge_live; auto. apply hrand_draws; auto. apply atoi_range in Ea; lia.
    + apply meets_say. exec_cmd Hn. unfold hrandfield_hash. rewrite Ea. apply purge_live; auto. split; auto using sim_refl.
  - apply meets_gone; auto; intros He.
    { apply meets_say. exec_cmd Hn. unfold hrandfield_hash. apply purge_gone; auto. }
    unfold int, int_or. destruct (atoi (str a)) as [c|] eqn:Ea; [unfold is_word; destruct (decide (named w "withvalues")) as [Hw|Hw]|].
    + rewrite bool_decide_eq_true_2 by auto. apply meets_on. exec_cmd Hn. unfold hrandfield_hash. rewrite Ea, named_beq by auto.
      apply purge_live; auto. apply hrand_draws; auto. apply atoi_range in Ea; lia.
    + rewrite bool_decide_eq_false_2 by auto. apply meets_say. exec_cmd Hn. unfold hrandfield_hash. rewrite Ea, unnamed_beq by auto.
      apply purge_live; auto. split; auto using sim_refl.
    + apply meets_say. exec_cmd Hn. unfold hrandfield_hash. rewrite Ea. apply purge_live; auto. split; auto using sim_refl.
Qed.
End WithParams.
