(** Commands that delete nothing: they leave a key alone until its deadline has passed. *)
From Verif Require Export LinMain.

Section WithParams.
Context {P : Setup} (T : Z -> Prop) (k0 : bytes) (lim : Z).
Hypothesis HT : forall t, T t -> t <= lim.

Inductive keeps {A} : prog A -> Prop :=
| K_ret a : keeps (Ret a)
| K_crash : keeps Crash
| K_hang : keeps Hang
| K_now k : (forall t, T t -> keeps (k t)) -> keeps (Now k)
| K_range l k : (forall l', keeps (k l')) -> keeps (Range l k)
| K_eget key k : (forall x, (key = k0 -> forall t, x = Some t -> lim <= t) -> keeps (k x)) -> keeps (EGet key k)
| K_dget key k : (forall x, keeps (k x)) -> keeps (DGet key k)
| K_dset key v k : (forall x, keeps (k x)) -> keeps (DSet key v k)
| K_dmut key v k : keeps k -> keeps (DMut key v k)
| K_ddel key k : key <> k0 -> (forall x, keeps (k x)) -> keeps (DDel key k)
| K_dseg i k : (forall x, keeps (k x)) -> keeps (DSeg i k)
| K_cntload k : (forall c, keeps (k c)) -> keeps (CntLoad k)
| K_cntstore n k : keeps k -> keeps (CntStore n k)
| K_eset key t k : (key = k0 -> lim <= t) -> keeps k -> keeps (ESet key t k)
| K_edel key k : (forall x, keeps (k x)) -> keeps (EDel key k)
| K_acq pos m k : keeps k -> keeps (Acq pos m k)
| K_rel pos m k : keeps k -> keeps (Rel pos m k).

(** The key is there, and no deadline of it has passed. *)
Definition kept (d : db) : Prop := is_Some (dict d !! k0) /\ forall t, exps d !! k0 = Some t -> lim <= t.
Lemma keeps_prim {A} d (p : prog A) d' p' : prim T d p d' p' -> keeps p -> kept d -> keeps p' /\ kept d'.
Proof.
  intros H Hk [Hd He]. destruct H; inversion Hk; subst; split; auto; try (split; [auto|auto]; fail).
  - split; cbn; auto. destruct (decide (key = k0)) as [->|]; [rewrite lookup_insert; eauto|rewrite lookup_insert_ne; auto].
  - split; cbn; auto. destruct (decide (key = k0)) as [->|]; [rewrite lookup_alter; destruct Hd as [? ->]; cbn; eauto|rewrite lookup_alter_ne; auto].
  - split; cbn; auto. rewrite lookup_delete_ne; auto.
  - match goal with H : forall x, _ -> keeps _ |- _ => apply H end. intros ->. auto.
  - split; cbn; auto. intros t0. destruct (decide (key = k0)) as [->|]; [rewrite lookup_insert; intros [= <-]; auto|rewrite lookup_insert_ne; auto].
  - split; cbn; auto. intros t. rewrite lookup_delete_Some. intros [_ ?]. auto.
Qed.
Lemma keeps_bind {A C} (p : prog A) (f : A -> prog C) : keeps p -> (forall a, keeps (f a)) -> keeps (pbind p f).
Proof. intros Hp Hf. induction Hp; cbn; auto; constructor; auto. Qed.
Lemma keeps_rtc {A} (c c' : conf A) : rtc (cstep T) c c' -> Forall (fun t => keeps (tcode t)) (ths c) -> kept (cdb c) -> kept (cdb c').
Proof.
  induction 1 as [c|c c1 c' Hs _ IH]; auto. intros HF Hk. destruct Hs; cbn in *.
  all: match goal with H : _ !! _ = Some (mkT ?p _) |- _ => assert (Hp : keeps p) by (apply (Forall_lookup_1 _ _ _ _ HF H)) end.
  1: { destruct (keeps_prim _ _ _ _ H0 Hp Hk). apply IH; auto. apply Forall_insert; auto. }
  all: apply IH; auto; apply Forall_insert; auto; cbn; auto; inversion Hp; auto.
Qed.
(** Commands that touch other keys only. *)
Lemma wf_keeps {A} (K : bytes -> Prop) u s h' h (p : prog A) : wf K u s h' h p -> ~ K k0 -> keeps p.
Proof. intros Hw HK. induction Hw; constructor; auto; intros; subst; try contradiction. congruence. Qed.

Lemma keeps_exp_get key : keeps (exp_get key).
Proof. constructor. intros; constructor. Qed.
Lemma keeps_dict_get key : keeps (dict_get key).
Proof. constructor. intros; constructor. Qed.
Lemma keeps_dict_set key v : keeps (dict_set key v).
Proof. constructor. intros []; repeat constructor. Qed.
Lemma keeps_obj_put key v : keeps (obj_put key v).
Proof. repeat constructor. Qed.
Lemma keeps_delete_expire key : keeps (delete_expire key).
Proof. constructor. intros; constructor. Qed.
Lemma keeps_set_expire key t : lim <= t -> keeps (set_expire key t).
Proof. intros. constructor. intros []; repeat constructor; auto. Qed.
Lemma keeps_now_bind {C} (f : Z -> prog C) : (forall t, T t -> keeps (f t)) -> keeps (pbind now_unix f).
Proof. intros H. constructor. auto. Qed.
Lemma keeps_draw_many n l : keeps (draw_many n l).
Proof. induction n; cbn [draw_many]; [constructor|]. constructor. intros. destruct l'; [constructor|]. apply keeps_bind; auto. intros; constructor. Qed.
Lemma keeps_random_keys sz l c : keeps (random_keys sz l c).
Proof. unfold random_keys. repeat (match goal with |- keeps (match ?x with _ => _ end) => destruct x end); try constructor; auto using keeps_draw_many; intros; constructor. Qed.
Lemma keeps_mset_loop l : keeps (mset_loop l).
Proof.
  induction l as [|[k v] l IH]; cbn [mset_loop]; [constructor|]. apply keeps_bind; [apply keeps_delete_expire|]. intros _.
  apply keeps_bind; [apply keeps_dict_set|]. auto.
Qed.
Lemma keeps_read_sets m ks acc : keeps (read_sets m ks acc).
Proof.
  revert acc. induction ks as [|k ks IH]; intros acc; cbn [read_sets]; [constructor|]. apply keeps_bind; [apply keeps_dict_get|].
  intros [[]|]; auto; constructor.
Qed.
Lemma keeps_with_lock {A} m key (p : prog A) : keeps p -> keeps (with_lock m key p).
Proof.
  intros Hb. unfold with_lock, lock, unlock. cbn. constructor. apply keeps_bind; auto. intros a. cbn. repeat constructor.
Qed.
Lemma keeps_with_mlock {A} m ks (p : prog A) : keeps p -> keeps (with_mlock m ks p).
Proof.
  intros Hb. unfold with_mlock, mlock, munlock. apply keeps_bind; [induction (sorted_locks ks); cbn; constructor; auto|]. intros _.
  apply keeps_bind; auto. intros a. apply keeps_bind; [induction (sorted_locks ks); cbn; constructor; auto|]. intros; constructor.
Qed.
(** The lazy deletion. *)
Lemma keeps_dek key : keeps (delete_expired_key key).
Proof.
  unfold delete_expired_key, check_expire. cbn. constructor. intros [t|] Ht; cbn; [|constructor]. constructor. intros now Hn.
  destruct (Z.ltb_spec t now) as [Hl|Hl]; [|constructor].
  assert (key <> k0) by (intros ->; specialize (Ht eq_refl t eq_refl); apply HT in Hn; lia).
  unfold with_lock, lock, unlock, dict_del, delete_expire. cbn. repeat (constructor; auto; try intros []; cbn).
Qed.
Lemma keeps_exists_loop ks n : keeps (exists_loop ks n).
Proof.
  revert n. induction ks as [|k ks IH]; intros n; cbn [exists_loop]; [constructor|]. apply keeps_bind; [apply keeps_dek|]. intros []; auto.
  apply keeps_bind; [|auto]. apply keeps_with_lock. apply keeps_bind; [apply keeps_dict_get|]. intros; constructor.
Qed.
Lemma keeps_mget_loop ks l : keeps (mget_loop ks l).
Proof.
  revert l. induction ks as [|k ks IH]; intros l; cbn [mget_loop]; [constructor|]. apply keeps_bind; [apply keeps_dek|]. intros []; auto.
  apply keeps_bind; [|auto]. apply keeps_with_lock. apply keeps_bind; [apply keeps_dict_get|]. intros [[]|]; constructor.
Qed.
Lemma keeps_live_keys ks acc : keeps (live_keys ks acc).
Proof. revert acc. induction ks as [|k ks IH]; intros acc; cbn [live_keys]; [constructor|]. apply keeps_bind; [apply keeps_dek|]. auto. Qed.
Lemma keeps_keys_loop p ks : keeps (keys_loop p ks).
Proof.
  induction ks as [|k ks IH]; cbn [keys_loop]; [constructor|]. apply keeps_bind; [apply keeps_dek|]. intros []; auto.
  repeat (match goal with |- keeps (match ?x with _ => _ end) => destruct x end); auto; try constructor. apply keeps_bind; auto. intros; constructor.
Qed.
Lemma keeps_keys_fill n i c : keeps (keys_fill n i c).
Proof.
  revert i c. induction n as [|n IH]; intros; cbn [keys_fill]; [repeat (match goal with |- keeps (match ?x with _ => _ end) => destruct x end); constructor|].
  constructor. intros l. repeat (match goal with |- keeps (match ?x with _ => _ end) => destruct x end); try constructor. apply keeps_bind; auto. intros; constructor.
Qed.
End WithParams.

Ltac keeps_atom := first [apply keeps_exp_get | apply keeps_dict_get | apply keeps_dict_set | apply keeps_obj_put | apply keeps_delete_expire
  | apply keeps_draw_many | apply keeps_random_keys | apply keeps_mset_loop | apply keeps_read_sets | apply keeps_set_expire; solve [auto]
  | match goal with HT : forall t, _ t -> t <= _ |- _ => first [apply (keeps_dek _ _ _ HT) | apply (keeps_exists_loop _ _ _ HT) | apply (keeps_mget_loop _ _ _ HT) | apply (keeps_live_keys _ _ _ HT) | apply (keeps_keys_loop _ _ _ HT)] end
  | apply keeps_keys_fill ].
Ltac keeps_step :=
  match goal with
  | |- keeps _ _ _ (Ret _) => apply K_ret
  | |- keeps _ _ _ Crash => apply K_crash
  | |- keeps _ _ _ Hang => apply K_hang
  | |- keeps _ _ _ (Range _ _) => apply K_range; intros ?
  | |- keeps _ _ _ (CntLoad _) => apply K_cntload; intros ?
  | |- keeps _ _ _ (with_lock _ _ _) => apply keeps_with_lock
  | |- keeps _ _ _ (with_mlock _ _ _) => apply keeps_with_mlock
  | |- keeps _ _ _ (let '(_, _) := ?x in _) => destruct x
  | |- keeps _ _ _ (match ?x with _ => _ end) => destruct x
  | |- keeps _ _ _ _ => keeps_atom
  | |- keeps _ _ _ (pbind now_unix _) => apply keeps_now_bind; intros ? ?
  | |- keeps _ _ _ (pbind _ _) => apply keeps_bind; [|intros ?]
  | H : context [keeps] |- keeps _ _ _ _ => eapply H
  | |- forall _, _ => intros ?
  | |- keeps _ _ _ _ => progress cbv zeta beta
  | |- keeps _ _ _ _ => progress wf_unf
  end.
Ltac keeps_cmd := repeat keeps_step.

Section WithParams2.
Context {P : Setup} (T : Z -> Prop) (k0 : bytes) (lim : Z).
Hypothesis HT : forall t, T t -> t <= lim.
Definition keeps_named (s : string) (ex : command -> prog rdata) : Prop :=
  forall n args, to_lower (str n) = B s -> removes (n :: args) = false -> far_deadlines T lim (n :: args) -> keeps T k0 lim (ex (n :: args)).
Lemma keeps_ping : keeps_named "ping" ping_keys.
Proof. intros n args Hn Ho Hd; unfold ping_keys; keeps_cmd. Qed.
Lemma keeps_exists : keeps_named "exists" exists_key.
Proof. intros n args Hn Ho Hd; unfold exists_key; keeps_cmd. Qed.
Lemma keeps_keys : keeps_named "keys" keys_key.
Proof. intros n args Hn Ho Hd; unfold keys_key, dict_keys; keeps_cmd. Qed.
Lemma keeps_persist : keeps_named "persist" persist_key.
Proof. intros n args Hn Ho Hd; unfold persist_key; keeps_cmd. Qed.
Lemma keeps_ttl : keeps_named "ttl" ttl_key.
Proof. intros n args Hn Ho Hd; unfold ttl_key; keeps_cmd. Qed.
Lemma keeps_type : keeps_named "type" type_key.
Proof. intros n args Hn Ho Hd; unfold type_key; keeps_cmd. Qed.
Lemma keeps_get : keeps_named "get" get_string.
Proof. intros n args Hn Ho Hd; unfold get_string; keeps_cmd. Qed.
Lemma keeps_getrange : keeps_named "getrange" getrange_string.
Proof. intros n args Hn Ho Hd; unfold getrange_string; keeps_cmd. Qed.
Lemma keeps_setrange : keeps_named "setrange" setrange_string.
Proof. intros n args Hn Ho Hd; unfold setrange_string; keeps_cmd. Qed.
Lemma keeps_mget : keeps_named "mget" mget_string.
Proof. intros n args Hn Ho Hd; unfold mget_string; keeps_cmd. Qed.
Lemma keeps_mset : keeps_named "mset" mset_string.
Proof. intros n args Hn Ho Hd; unfold mset_string; keeps_cmd. Qed.
Lemma keeps_setnx : keeps_named "setnx" setnx_string.
Proof. intros n args Hn Ho Hd; unfold setnx_string; keeps_cmd. Qed.
Lemma keeps_strlen : keeps_named "strlen" strlen_string.
Proof. intros n args Hn Ho Hd; unfold strlen_string; keeps_cmd. Qed.
Lemma keeps_incr : keeps_named "incr" incr_string.
Proof. intros n args Hn Ho Hd; unfold incr_string; keeps_cmd. Qed.
Lemma keeps_incrby : keeps_named "incrby" incrby_string.
Proof. intros n args Hn Ho Hd; unfold incrby_string; keeps_cmd. Qed.
Lemma keeps_decr : keeps_named "decr" decr_string.
Proof. intros n args Hn Ho Hd; unfold decr_string; keeps_cmd. Qed.
Lemma keeps_decrby : keeps_named "decrby" decrby_string.
Proof. intros n args Hn Ho Hd; unfold decrby_string; keeps_cmd. Qed.
Lemma keeps_incrbyfloat : keeps_named "incrbyfloat" incrbyfloat_string.
Proof. intros n args Hn Ho Hd; unfold incrbyfloat_string; keeps_cmd. Qed.
Lemma keeps_append : keeps_named "append" append_string.
Proof. intros n args Hn Ho Hd; unfold append_string; keeps_cmd. Qed.
Lemma keeps_hexists : keeps_named "hexists" hexists_hash.
Proof. intros n args Hn Ho Hd; unfold hexists_hash; keeps_cmd. Qed.
Lemma keeps_hget : keeps_named "hget" hget_hash.
Proof. intros n args Hn Ho Hd; unfold hget_hash; keeps_cmd. Qed.
Lemma keeps_hgetall : keeps_named "hgetall" hgetall_hash.
Proof. intros n args Hn Ho Hd; unfold hgetall_hash; keeps_cmd. Qed.
Lemma keeps_hincrby : keeps_named "hincrby" hincrby_hash.
Proof. intros n args Hn Ho Hd; unfold hincrby_hash; keeps_cmd. Qed.
Lemma keeps_hincrbyfloat : keeps_named "hincrbyfloat" hincrbyfloat_hash.
Proof. intros n args Hn Ho Hd; unfold hincrbyfloat_hash; keeps_cmd. Qed.
Lemma keeps_hkeys : keeps_named "hkeys" hkeys_hash.
Proof. intros n args Hn Ho Hd; unfold hkeys_hash; keeps_cmd. Qed.
Lemma keeps_hlen : keeps_named "hlen" hlen_hash.
Proof. intros n args Hn Ho Hd; unfold hlen_hash; keeps_cmd. Qed.
Lemma keeps_hmget : keeps_named "hmget" hmget_hash.
Proof. intros n args Hn Ho Hd; unfold hmget_hash; keeps_cmd. Qed.
Lemma keeps_hmset : keeps_named "hmset" hmset_hash.
Proof. intros n args Hn Ho Hd; unfold hmset_hash, hset_common; keeps_cmd. Qed.
Lemma keeps_hset : keeps_named "hset" hset_hash.
Proof. intros n args Hn Ho Hd; unfold hset_hash, hset_common; keeps_cmd. Qed.
Lemma keeps_hsetnx : keeps_named "hsetnx" hsetnx_hash.
Proof. intros n args Hn Ho Hd; unfold hsetnx_hash; keeps_cmd. Qed.
Lemma keeps_hvals : keeps_named "hvals" hvals_hash.
Proof. intros n args Hn Ho Hd; unfold hvals_hash; keeps_cmd. Qed.
Lemma keeps_hstrlen : keeps_named "hstrlen" hstrlen_hash.
Proof. intros n args Hn Ho Hd; unfold hstrlen_hash; keeps_cmd. Qed.
Lemma keeps_hrandfield : keeps_named "hrandfield" hrandfield_hash.
Proof. intros n args Hn Ho Hd; unfold hrandfield_hash; keeps_cmd. Qed.
Lemma keeps_lindex : keeps_named "lindex" lindex_list.
Proof. intros n args Hn Ho Hd; unfold lindex_list; keeps_cmd. Qed.
Lemma keeps_linsert : keeps_named "linsert" linsert_list.
Proof. intros n args Hn Ho Hd; unfold linsert_list; keeps_cmd. Qed.
Lemma keeps_llen : keeps_named "llen" llen_list.
Proof. intros n args Hn Ho Hd; unfold llen_list; keeps_cmd. Qed.
Lemma keeps_lpos : keeps_named "lpos" lpos_list.
Proof. intros n args Hn Ho Hd; unfold lpos_list; keeps_cmd. Qed.
Lemma keeps_lpush : keeps_named "lpush" lpush_list.
Proof. intros n args Hn Ho Hd; unfold lpush_list, push_list; keeps_cmd. Qed.
Lemma keeps_lpushx : keeps_named "lpushx" lpushx_list.
Proof. intros n args Hn Ho Hd; unfold lpushx_list, pushx_list; keeps_cmd. Qed.
Lemma keeps_lrange : keeps_named "lrange" lrange_list.
Proof. intros n args Hn Ho Hd; unfold lrange_list; keeps_cmd. Qed.
Lemma keeps_lset : keeps_named "lset" lset_list.
Proof. intros n args Hn Ho Hd; unfold lset_list; keeps_cmd. Qed.
Lemma keeps_rpush : keeps_named "rpush" rpush_list.
Proof. intros n args Hn Ho Hd; unfold rpush_list, push_list; keeps_cmd. Qed.
Lemma keeps_rpushx : keeps_named "rpushx" rpushx_list.
Proof. intros n args Hn Ho Hd; unfold rpushx_list, pushx_list; keeps_cmd. Qed.
Lemma keeps_sadd : keeps_named "sadd" sadd_set.
Proof. intros n args Hn Ho Hd; unfold sadd_set; keeps_cmd. Qed.
Lemma keeps_scard : keeps_named "scard" scard_set.
Proof. intros n args Hn Ho Hd; unfold scard_set; keeps_cmd. Qed.
Lemma keeps_sdiff : keeps_named "sdiff" sdiff_set.
Proof. intros n args Hn Ho Hd; unfold sdiff_set, setop_set; keeps_cmd. Qed.
Lemma keeps_sinter : keeps_named "sinter" sinter_set.
Proof. intros n args Hn Ho Hd; unfold sinter_set, setop_set; keeps_cmd. Qed.
Lemma keeps_sismember : keeps_named "sismember" sismember_set.
Proof. intros n args Hn Ho Hd; unfold sismember_set; keeps_cmd. Qed.
Lemma keeps_smembers : keeps_named "smembers" smembers_set.
Proof. intros n args Hn Ho Hd; unfold smembers_set; keeps_cmd. Qed.
Lemma keeps_srandmember : keeps_named "srandmember" srandmember_set.
Proof. intros n args Hn Ho Hd; unfold srandmember_set; keeps_cmd. Qed.
Lemma keeps_sunion : keeps_named "sunion" sunion_set.
Proof. intros n args Hn Ho Hd; unfold sunion_set, setop_set; keeps_cmd. Qed.
Lemma keeps_expire : keeps_named "expire" expire_key.
Proof.
  intros n args Hn _ [Hd _]. specialize (Hd (or_introl (is_named _ _ _ Hn))). unfold expire_key.
  assert (HR : forall k v r o o', args = k :: v :: r -> keeps T k0 lim (expire_run k v o o')).
  { intros k v r o o' ->. specialize (Hd v eq_refl). unfold expire_run. destruct (atoi (str v)) as [m|] eqn:E; [|constructor].
    apply K_now. intros t Ht. assert (lim <= wrap64 (t + m)) by (eapply Hd; eauto). keeps_cmd. }
  destruct args as [|k [|v [|o [|]]]]; try (apply K_ret); eapply HR; reflexivity.
Qed.
Lemma keeps_setex : keeps_named "setex" setex_string.
Proof.
  intros n args Hn _ [Hd _]. specialize (Hd (or_intror (is_named _ _ _ Hn))). unfold setex_string.
  destruct args as [|k [|v [|o [|]]]]; try (apply K_ret). specialize (Hd v eq_refl). apply keeps_bind; [apply keeps_dek; exact HT|intros _].
  destruct (atoi (str v)) as [m|] eqn:E; [|constructor].
  assert (forall t, T t -> lim <= wrap64 (t + m)) by (intros; eapply Hd; eauto). keeps_cmd.
Qed.
Lemma keeps_set : keeps_named "set" set_string.
Proof.
  intros n args Hn _ [_ Hd]. specialize (Hd (is_named _ _ _ Hn)). unfold set_string. destruct args as [|k [|v args]]; try (apply K_ret).
  apply keeps_bind; [apply keeps_dek; exact HT|intros _]. destruct (set_opts args no_opts) as [o|e|] eqn:E; [|apply K_ret|apply K_crash].
  destruct (set_opts_far T lim args) with (o0 := no_opts) (o := o) as (H1 & H2 & _ & _ & H3); auto using no_opts_far; [intros i x Hx; apply (Hd (S (S (S i))) x); [lia|exact Hx]|].
  destruct (o_ex o) as [m|]; destruct (o_px o) as [m'|].
  - replace (Nat.ltb 1 (o_num o)) with true by (symmetry; apply Nat.ltb_lt; apply H3; eauto). rewrite orb_true_r. apply K_ret.
  - assert (forall t, T t -> lim <= wrap64 (t + m)) by (intros; eapply H1; eauto). keeps_cmd.
  - assert (forall t, T t -> lim <= wrap64 (t + Z.quot m' 1000)) by (intros; eapply H2; eauto). keeps_cmd.
  - keeps_cmd.
Qed.
Lemma keeps_del : keeps_named "del" del_key.
Proof. intros n args Hn Ho. exfalso. unfold removes in Ho. rewrite (is_named _ _ args Hn) in Ho. rewrite ?orb_true_r, ?orb_true_l in Ho. discriminate. Qed.
Lemma keeps_rename : keeps_named "rename" rename_key.
Proof. intros n args Hn Ho. exfalso. unfold removes in Ho. rewrite (is_named _ _ args Hn) in Ho. rewrite ?orb_true_r, ?orb_true_l in Ho. discriminate. Qed.
Lemma keeps_hdel : keeps_named "hdel" hdel_hash.
Proof. intros n args Hn Ho. exfalso. unfold removes in Ho. rewrite (is_named _ _ args Hn) in Ho. rewrite ?orb_true_r, ?orb_true_l in Ho. discriminate. Qed.
Lemma keeps_lpop : keeps_named "lpop" lpop_list.
Proof. intros n args Hn Ho. exfalso. unfold removes in Ho. rewrite (is_named _ _ args Hn) in Ho. rewrite ?orb_true_r, ?orb_true_l in Ho. discriminate. Qed.
Lemma keeps_rpop : keeps_named "rpop" rpop_list.
Proof. intros n args Hn Ho. exfalso. unfold removes in Ho. rewrite (is_named _ _ args Hn) in Ho. rewrite ?orb_true_r, ?orb_true_l in Ho. discriminate. Qed.
Lemma keeps_lrem : keeps_named "lrem" lrem_list.
Proof. intros n args Hn Ho. exfalso. unfold removes in Ho. rewrite (is_named _ _ args Hn) in Ho. rewrite ?orb_true_r, ?orb_true_l in Ho. discriminate. Qed.
Lemma keeps_ltrim : keeps_named "ltrim" ltrim_list.
Proof. intros n args Hn Ho. exfalso. unfold removes in Ho. rewrite (is_named _ _ args Hn) in Ho. rewrite ?orb_true_r, ?orb_true_l in Ho. discriminate. Qed.
Lemma keeps_lmove : keeps_named "lmove" lmove_list.
Proof. intros n args Hn Ho. exfalso. unfold removes in Ho. rewrite (is_named _ _ args Hn) in Ho. rewrite ?orb_true_r, ?orb_true_l in Ho. discriminate. Qed.
Lemma keeps_srem : keeps_named "srem" srem_set.
Proof. intros n args Hn Ho. exfalso. unfold removes in Ho. rewrite (is_named _ _ args Hn) in Ho. rewrite ?orb_true_r, ?orb_true_l in Ho. discriminate. Qed.
Lemma keeps_spop : keeps_named "spop" spop_set.
Proof. intros n args Hn Ho. exfalso. unfold removes in Ho. rewrite (is_named _ _ args Hn) in Ho. rewrite ?orb_true_r, ?orb_true_l in Ho. discriminate. Qed.
Lemma keeps_smove : keeps_named "smove" smove_set.
Proof. intros n args Hn Ho. exfalso. unfold removes in Ho. rewrite (is_named _ _ args Hn) in Ho. rewrite ?orb_true_r, ?orb_true_l in Ho. discriminate. Qed.
Lemma keeps_sdiffstore : keeps_named "sdiffstore" sdiffstore_set.
Proof. intros n args Hn Ho. exfalso. unfold removes in Ho. rewrite (is_named _ _ args Hn) in Ho. rewrite ?orb_true_r, ?orb_true_l in Ho. discriminate. Qed.
Lemma keeps_sinterstore : keeps_named "sinterstore" sinterstore_set.
Proof. intros n args Hn Ho. exfalso. unfold removes in Ho. rewrite (is_named _ _ args Hn) in Ho. rewrite ?orb_true_r, ?orb_true_l in Ho. discriminate. Qed.
Lemma keeps_sunionstore : keeps_named "sunionstore" sunionstore_set.
Proof. intros n args Hn Ho. exfalso. unfold removes in Ho. rewrite (is_named _ _ args Hn) in Ho. rewrite ?orb_true_r, ?orb_true_l in Ho. discriminate. Qed.
Theorem keeps_exec cmd : removes cmd = false -> far_deadlines T lim cmd -> keeps T k0 lim (exec_in_db cmd).
Proof.
  refine (table_ind (fun cmd p => removes cmd = false -> far_deadlines T lim cmd -> keeps T k0 lim p) _ _ _ cmd); clear cmd.
  - intros. constructor.
  - intros. constructor.
  - unfold cmd_table. repeat (apply List.Forall_cons; [cbn [fst snd]|]); [..|apply List.Forall_nil].
    + exact keeps_ping.
    + exact keeps_del.
    + exact keeps_exists.
    + exact keeps_keys.
    + exact keeps_expire.
    + exact keeps_persist.
    + exact keeps_ttl.
    + exact keeps_rename.
    + exact keeps_type.
    + exact keeps_set.
    + exact keeps_get.
    + exact keeps_getrange.
    + exact keeps_setrange.
    + exact keeps_mget.
    + exact keeps_mset.
    + exact keeps_setex.
    + exact keeps_setnx.
    + exact keeps_strlen.
    + exact keeps_incr.
    + exact keeps_incrby.
    + exact keeps_decr.
    + exact keeps_decrby.
    + exact keeps_incrbyfloat.
    + exact keeps_append.
    + exact keeps_hdel.
    + exact keeps_hexists.
    + exact keeps_hget.
    + exact keeps_hgetall.
    + exact keeps_hincrby.
    + exact keeps_hincrbyfloat.
    + exact keeps_hkeys.
    + exact keeps_hlen.
    + exact keeps_hmget.
    + exact keeps_hmset.
    + exact keeps_hset.
    + exact keeps_hsetnx.
    + exact keeps_hvals.
    + exact keeps_hstrlen.
    + exact keeps_hrandfield.
    + exact keeps_lindex.
    + exact keeps_linsert.
    + exact keeps_llen.
    + exact keeps_lmove.
    + exact keeps_lpop.
    + exact keeps_lpos.
    + exact keeps_lpush.
    + exact keeps_lpushx.
    + exact keeps_lrange.
    + exact keeps_lrem.
    + exact keeps_lset.
    + exact keeps_ltrim.
    + exact keeps_rpop.
    + exact keeps_rpush.
    + exact keeps_rpushx.
    + exact keeps_sadd.
    + exact keeps_scard.
    + exact keeps_sdiff.
    + exact keeps_sdiffstore.
    + exact keeps_sinter.
    + exact keeps_sinterstore.
    + exact keeps_sismember.
    + exact keeps_smembers.
    + exact keeps_smove.
    + exact keeps_spop.
    + exact keeps_srandmember.
    + exact keeps_srem.
    + exact keeps_sunion.
    + exact keeps_sunionstore.
Qed.
Lemma keeps_client (cmds : list command) acc : (forall cmd, cmd ∈ cmds -> keeps T k0 lim (exec_in_db cmd)) -> keeps T k0 lim (client_from acc cmds).
Proof.
  revert acc. induction cmds as [|c r IH]; intros acc H; [constructor|].
  change (client_from acc (c :: r)) with (x <- exec_in_db c ;; client_from (acc ++ [x]) r).
  apply keeps_bind; [exact (H c ltac:(left))|]. intros x. apply IH. intros cmd Hc. exact (H cmd ltac:(right; exact Hc)).
Qed.
Theorem clients_keep d cs c : each (fun cmd => leaves_alone k0 cmd \/ removes cmd = false /\ far_deadlines T lim cmd) cs ->
  kept k0 lim d -> rtc (cstep T) (clients d cs) c -> kept k0 lim (cdb c).
Proof.
  intros HE Hk R. eapply keeps_rtc; [exact R| |exact Hk]. cbn. apply Forall_fmap, Forall_fmap, Forall_forall. intros cmds Hc. apply elem_of_list_In in Hc. cbn.
  apply keeps_client. intros cmd Hd. destruct (HE _ _ Hc Hd) as [[H1 H2]|[H1 H2]].
  - eapply wf_keeps; [exact (exec_wf cmd)|]. intros [H|H]; [contradiction|congruence].
  - apply keeps_exec; auto.
Qed.
End WithParams2.
