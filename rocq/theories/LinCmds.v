(** The atomic commands: their programs have one section (see LinProofs.v). *)
From Verif Require Export LinProofs.

Section WithParams.
Context {P : Setup} (T : Z -> Prop) (lim : Z).
Hypothesis HT : forall t, T t -> t <= lim.
Notation single := (single T (fun _ => True) lim).

(** What is executed while the locks are held. *)
Inductive body {A} : prog A -> Prop :=
| B_ret a : body (Ret a)
| B_crash : body Crash
| B_hang : body Hang
| B_now k : (forall t, T t -> body (k t)) -> body (Now k)
| B_range l k : (forall l', body (k l')) -> body (Range l k)
| B_eget key k : (forall x, (forall t, x = Some t -> lim <= t) -> body (k x)) -> body (EGet key k)
| B_dget key k : (forall x, body (k x)) -> body (DGet key k)
| B_dset key v k : (forall x, body (k x)) -> body (DSet key v k)
| B_dmut key v k : body k -> body (DMut key v k)
| B_ddel key k : (forall x, body (k x)) -> body (DDel key k)
| B_cntload k g k0 : (forall c, k c = CntStore (g c) k0) -> body k0 -> body (CntLoad k)
| B_eset key t k : lim <= t -> body k -> body (ESet key t k)
| B_edel key k : (forall x, body (k x)) -> body (EDel key k).

Lemma body_bind {A C} (p : prog A) (f : A -> prog C) : body p -> (forall a, body (f a)) -> body (pbind p f).
Proof.
  intros Hp Hf. induction Hp; cbn; auto; try (constructor; auto; fail).
  eapply B_cntload with (g := g) (k0 := pbind k0 f); auto. intros c. rewrite H. reflexivity.
Qed.
Lemma body_single {A C} (p : prog A) (f : A -> prog C) : body p -> (forall a, single In (f a)) -> single In (pbind p f).
Proof.
  intros Hp Hf. induction Hp; cbn; auto; try (constructor; auto; fail).
  eapply S_cntload with (g := g) (k0 := pbind k0 f); auto. intros c. rewrite H. reflexivity.
Qed.
Lemma body_now_bind {C} (f : Z -> prog C) : (forall t, T t -> body (f t)) -> body (pbind now_unix f).
Proof. intros H. constructor. auto. Qed.
Lemma body_exp_bind {C} key (f : option Z -> prog C) : (forall x, (forall t, x = Some t -> lim <= t) -> body (f x)) -> body (pbind (exp_get key) f).
Proof. intros H. constructor. auto. Qed.
Lemma body_exp_get key : body (exp_get key).
Proof. constructor. intros; constructor. Qed.
Lemma body_dict_get key : body (dict_get key).
Proof. constructor. intros; constructor. Qed.
Lemma body_dict_set key v : body (dict_set key v).
Proof. constructor. intros []; [|constructor]. apply B_cntload with (g := fun c => c + 1) (k0 := Ret tt); auto. constructor. Qed.
Lemma body_dict_del key : body (dict_del key).
Proof. constructor. intros []; [|constructor]. apply B_cntload with (g := fun c => c - 1) (k0 := Ret true); auto. constructor. Qed.
Lemma body_obj_put key v : body (obj_put key v).
Proof. constructor. constructor. Qed.
Lemma body_delete_expire key : body (delete_expire key).
Proof. constructor. intros; constructor. Qed.
Lemma body_set_expire key t : lim <= t -> body (set_expire key t).
Proof. intros. constructor. intros []; [|constructor]. constructor; auto. constructor. Qed.
Lemma body_now_unix : body now_unix.
Proof. constructor. intros; constructor. Qed.
Lemma body_draw_many n l : body (draw_many n l).
Proof. induction n; cbn [draw_many]; [constructor|]. constructor. intros. destruct l'; [constructor|]. apply body_bind; auto. intros; constructor. Qed.
Lemma body_pop_many n x : body (pop_many n x).
Proof.
  revert x. induction n; intros x; cbn [pop_many]; [constructor|]. apply body_bind; [|intros [? ?]; apply body_bind; auto; intros [? ?]; constructor].
  unfold set_pop. constructor. intros l'. destruct l'; constructor.
Qed.
Lemma body_random_keys sz l c : body (random_keys sz l c).
Proof. unfold random_keys. repeat (match goal with |- body (match ?x with _ => _ end) => destruct x end); try constructor; auto using body_draw_many; intros; constructor. Qed.
Lemma body_mset_loop l : body (mset_loop l).
Proof.
  induction l as [|[k v] l IH]; cbn [mset_loop]; [constructor|]. apply body_bind; [apply body_delete_expire|]. intros _.
  apply body_bind; [apply body_dict_set|]. auto.
Qed.
Lemma body_read_sets m ks acc : body (read_sets m ks acc).
Proof.
  revert acc. induction ks as [|k ks IH]; intros acc; cbn [read_sets]; [constructor|]. apply body_bind; [apply body_dict_get|].
  intros [[]|]; auto; constructor.
Qed.

(** Locks. *)
Lemma post_rel_all {A} m l (r : A) : post r (pbind (rel_all m l) (fun _ => Ret r)).
Proof. induction l; cbn; constructor; auto. Qed.
Lemma single_with_lock {A} m key (b : prog A) : body b -> single Pre (with_lock m key b).
Proof.
  intros Hb. unfold with_lock, lock, unlock. cbn. constructor. apply body_single; auto. intros a. cbn. apply S_rel with (r := a). constructor.
Qed.
Lemma single_acq_all {A} m l (k : prog A) : l <> [] -> single In k -> single Pre (pbind (acq_all m l) (fun _ => k)).
Proof.
  intros Hl Hk. destruct l as [|p l]; [congruence|]. cbn. constructor. clear Hl p. induction l; cbn; auto. constructor. auto.
Qed.
Lemma sorted_locks_nil ks : sorted_locks ks = [] -> ks = [].
Proof.
  destruct ks as [|k ks]; auto. unfold sorted_locks. intros E.
  assert (H : lockpos k ∈ merge_sort N.le (remove_dups (lockpos <$> (k :: ks)))).
  { rewrite merge_sort_Permutation, elem_of_remove_dups. left. }
  rewrite E in H. inversion H.
Qed.
Lemma single_with_mlock {A} m ks (b : prog A) : ks <> [] -> body b -> single Pre (with_mlock m ks b).
Proof.
  intros Hk Hb. unfold with_mlock, mlock, munlock. apply single_acq_all; [intros E; apply Hk, sorted_locks_nil; auto|].
  apply body_single; auto. intros a. destruct (sorted_locks ks) as [|p l] eqn:E; [destruct Hk; apply sorted_locks_nil; auto|].
  cbn. apply S_rel with (r := a). apply post_rel_all.
Qed.
Lemma post_bind {A C} (r : A) (s : C) p f : post r p -> f r = Ret s -> post s (pbind p f).
Proof. intros Hp E. induction Hp; cbn; [rewrite E; constructor|constructor; auto]. Qed.
(** Computing the reply from the result. *)
Lemma single_map {A C} ph (p : prog A) (g : A -> C) : single ph p -> single ph (pbind p (fun a => Ret (g a))).
Proof.
  intros H. induction H; cbn; try (constructor; auto; fail).
  - eapply S_eget0; [exact I|exact IHsingle|rewrite H1; reflexivity|]. intros t Ht. destruct (H2 t Ht) as (k2 & E & Hq). rewrite E. cbn. eexists. split; [reflexivity|].
    intros now Hn. cbn. rewrite Hq; auto.
  - eapply S_cntload with (g := g0); [intros c; rewrite H; reflexivity|]. auto.
  - eapply S_rel with (r := g r). eapply post_bind; eauto.
Qed.
(** Nothing has expired. *)
Lemma single_dek {A} key (f : bool -> prog A) : single Pre (f false) -> single Pre (pbind (delete_expired_key key) f).
Proof.
  intros H. unfold delete_expired_key, check_expire. cbn. eapply S_eget0; [exact I|exact H|reflexivity|]. intros t Ht. cbn. eexists. split; [reflexivity|].
  intros now Hn. cbn. apply HT in Hn. replace (t <? now) with false by (symmetry; apply Z.ltb_ge; lia). reflexivity.
Qed.
Lemma single_dek2 {A C} key (g : bool -> prog C) (f : C -> prog A) : single Pre (pbind (g false) f) -> single Pre (pbind (pbind (delete_expired_key key) g) f).
Proof.
  intros H. unfold delete_expired_key, check_expire. cbn. eapply S_eget0; [exact I|exact H|reflexivity|]. intros t Ht. cbn. eexists. split; [reflexivity|].
  intros now Hn. cbn. apply HT in Hn. replace (t <? now) with false by (symmetry; apply Z.ltb_ge; lia). reflexivity.
Qed.
Lemma single_live_keys {A} ks acc (f : list bytes -> prog A) : single Pre (f (acc ++ map str ks)) -> single Pre (pbind (live_keys ks acc) f).
Proof.
  revert acc. induction ks as [|k ks IH]; intros acc H; cbn [live_keys].
  - cbn in *. rewrite app_nil_r in H. auto.
  - apply single_dek2. apply IH. rewrite <- app_assoc. exact H.
Qed.
End WithParams.

Ltac lin_atom := first [apply body_exp_get | apply body_dict_get | apply body_dict_set | apply body_dict_del | apply body_obj_put | apply body_delete_expire
  | apply body_now_unix | apply body_draw_many | apply body_pop_many | apply body_random_keys | apply body_mset_loop | apply body_read_sets | apply body_set_expire; solve [auto]].
Ltac lin_body :=
  match goal with
  | |- body _ _ (Ret _) => apply B_ret
  | |- body _ _ Crash => apply B_crash
  | |- body _ _ Hang => apply B_hang
  | |- body _ _ (Range _ _) => apply B_range; intros ?
  | |- body _ _ (let '(_, _) := ?x in _) => destruct x
  | |- body _ _ (match ?x with _ => _ end) => destruct x
  | |- body _ _ _ => lin_atom
  | |- body _ _ (pbind now_unix _) => apply body_now_bind; intros ? ?
  | |- body _ _ (pbind (exp_get _) _) => apply body_exp_bind; intros ? ?
  | |- body _ _ (pbind _ _) => apply body_bind; [|intros ?]
  | H : context [body] |- body _ _ _ => eapply H
  | |- forall _, _ => intros ?
  | |- body _ _ _ => progress cbv zeta beta
  | |- body _ _ _ => progress wf_unf
  end.
Ltac lin_single :=
  match goal with
  | |- single _ _ _ Pre (Ret _) => apply S_ret
  | |- single _ _ _ _ Crash => apply S_crash
  | |- single _ _ _ _ Hang => apply S_hang
  | |- single _ _ _ Pre (with_lock _ _ _) => apply single_with_lock
  | |- single _ _ _ Pre (with_mlock _ _ _) => apply single_with_mlock; [discriminate|]
  | HT : forall t, ?T t -> t <= _ |- single ?T _ _ Pre (pbind (delete_expired_key _) _) => apply (single_dek _ _ HT)
  | |- single _ _ _ _ (pbind now_unix _) => apply S_now; intros ? ?
  | |- single _ _ _ _ (let '(_, _) := ?x in _) => destruct x
  | |- single _ _ _ _ (match ?x with _ => _ end) => destruct x
  | |- single _ _ _ _ _ => progress cbv zeta beta
  | |- single _ _ _ _ _ => progress wf_unf
  end.
Ltac lin_cmd := repeat first [lin_body | lin_single].

Section WithParams2.
Context {P : Setup} (T : Z -> Prop) (lim : Z).
Hypothesis HT : forall t, T t -> t <= lim.
Definition lin_named (s : string) (ex : command -> prog rdata) : Prop :=
  forall n args, to_lower (str n) = B s -> one_step (n :: args) -> far_deadlines T lim (n :: args) -> single T (fun _ => True) lim Pre (ex (n :: args)).
Lemma lin_ping : lin_named "ping" ping_keys.
Proof. intros n args Hn Ho Hd; unfold ping_keys; lin_cmd. Qed.
Lemma lin_persist : lin_named "persist" persist_key.
Proof. intros n args Hn Ho Hd; unfold persist_key; lin_cmd. Qed.
Lemma lin_ttl : lin_named "ttl" ttl_key.
Proof. intros n args Hn Ho Hd; unfold ttl_key; lin_cmd. Qed.
Lemma lin_rename : lin_named "rename" rename_key.
Proof. intros n args Hn Ho Hd; unfold rename_key; lin_cmd. Qed.
Lemma lin_type : lin_named "type" type_key.
Proof. intros n args Hn Ho Hd; unfold type_key; lin_cmd. Qed.
Lemma lin_get : lin_named "get" get_string.
Proof. intros n args Hn Ho Hd; unfold get_string; lin_cmd. Qed.
Lemma lin_getrange : lin_named "getrange" getrange_string.
Proof. intros n args Hn Ho Hd; unfold getrange_string; lin_cmd. Qed.
Lemma lin_setrange : lin_named "setrange" setrange_string.
Proof. intros n args Hn Ho Hd; unfold setrange_string; lin_cmd. Qed.
Lemma lin_strlen : lin_named "strlen" strlen_string.
Proof. intros n args Hn Ho Hd; unfold strlen_string; lin_cmd. Qed.
Lemma lin_incr : lin_named "incr" incr_string.
Proof. intros n args Hn Ho Hd; unfold incr_string; lin_cmd. Qed.
Lemma lin_incrby : lin_named "incrby" incrby_string.
Proof. intros n args Hn Ho Hd; unfold incrby_string; lin_cmd. Qed.
Lemma lin_decr : lin_named "decr" decr_string.
Proof. intros n args Hn Ho Hd; unfold decr_string; lin_cmd. Qed.
Lemma lin_decrby : lin_named "decrby" decrby_string.
Proof. intros n args Hn Ho Hd; unfold decrby_string; lin_cmd. Qed.
Lemma lin_incrbyfloat : lin_named "incrbyfloat" incrbyfloat_string.
Proof. intros n args Hn Ho Hd; unfold incrbyfloat_string; lin_cmd. Qed.
Lemma lin_append : lin_named "append" append_string.
Proof. intros n args Hn Ho Hd; unfold append_string; lin_cmd. Qed.
Lemma lin_hdel : lin_named "hdel" hdel_hash.
Proof. intros n args Hn Ho Hd; unfold hdel_hash; lin_cmd. Qed.
Lemma lin_hexists : lin_named "hexists" hexists_hash.
Proof. intros n args Hn Ho Hd; unfold hexists_hash; lin_cmd. Qed.
Lemma lin_hget : lin_named "hget" hget_hash.
Proof. intros n args Hn Ho Hd; unfold hget_hash; lin_cmd. Qed.
Lemma lin_hgetall : lin_named "hgetall" hgetall_hash.
Proof. intros n args Hn Ho Hd; unfold hgetall_hash; lin_cmd. Qed.
Lemma lin_hincrby : lin_named "hincrby" hincrby_hash.
Proof. intros n args Hn Ho Hd; unfold hincrby_hash; lin_cmd. Qed.
Lemma lin_hincrbyfloat : lin_named "hincrbyfloat" hincrbyfloat_hash.
Proof. intros n args Hn Ho Hd; unfold hincrbyfloat_hash; lin_cmd. Qed.
Lemma lin_hkeys : lin_named "hkeys" hkeys_hash.
Proof. intros n args Hn Ho Hd; unfold hkeys_hash; lin_cmd. Qed.
Lemma lin_hlen : lin_named "hlen" hlen_hash.
Proof. intros n args Hn Ho Hd; unfold hlen_hash; lin_cmd. Qed.
Lemma lin_hmget : lin_named "hmget" hmget_hash.
Proof. intros n args Hn Ho Hd; unfold hmget_hash; lin_cmd. Qed.
Lemma lin_hmset : lin_named "hmset" hmset_hash.
Proof. intros n args Hn Ho Hd; unfold hmset_hash, hset_common; lin_cmd. Qed.
Lemma lin_hset : lin_named "hset" hset_hash.
Proof. intros n args Hn Ho Hd; unfold hset_hash, hset_common; lin_cmd. Qed.
Lemma lin_hsetnx : lin_named "hsetnx" hsetnx_hash.
Proof. intros n args Hn Ho Hd; unfold hsetnx_hash; lin_cmd. Qed.
Lemma lin_hvals : lin_named "hvals" hvals_hash.
Proof. intros n args Hn Ho Hd; unfold hvals_hash; lin_cmd. Qed.
Lemma lin_hstrlen : lin_named "hstrlen" hstrlen_hash.
Proof. intros n args Hn Ho Hd; unfold hstrlen_hash; lin_cmd. Qed.
Lemma lin_hrandfield : lin_named "hrandfield" hrandfield_hash.
Proof. intros n args Hn Ho Hd; unfold hrandfield_hash; lin_cmd. Qed.
Lemma lin_lindex : lin_named "lindex" lindex_list.
Proof. intros n args Hn Ho Hd; unfold lindex_list; lin_cmd. Qed.
Lemma lin_linsert : lin_named "linsert" linsert_list.
Proof. intros n args Hn Ho Hd; unfold linsert_list; lin_cmd. Qed.
Lemma lin_llen : lin_named "llen" llen_list.
Proof. intros n args Hn Ho Hd; unfold llen_list; lin_cmd. Qed.
Lemma lin_lmove : lin_named "lmove" lmove_list.
Proof. intros n args Hn Ho Hd; unfold lmove_list; lin_cmd. Qed.
Lemma lin_lpop : lin_named "lpop" lpop_list.
Proof. intros n args Hn Ho Hd; unfold lpop_list, pop_list; lin_cmd. Qed.
Lemma lin_lpos : lin_named "lpos" lpos_list.
Proof. intros n args Hn Ho Hd; unfold lpos_list; lin_cmd. Qed.
Lemma lin_lpush : lin_named "lpush" lpush_list.
Proof. intros n args Hn Ho Hd; unfold lpush_list, push_list; lin_cmd. Qed.
Lemma lin_lpushx : lin_named "lpushx" lpushx_list.
Proof. intros n args Hn Ho Hd; unfold lpushx_list, pushx_list; lin_cmd. Qed.
Lemma lin_lrange : lin_named "lrange" lrange_list.
Proof. intros n args Hn Ho Hd; unfold lrange_list; lin_cmd. Qed.
Lemma lin_lrem : lin_named "lrem" lrem_list.
Proof. intros n args Hn Ho Hd; unfold lrem_list; lin_cmd. Qed.
Lemma lin_lset : lin_named "lset" lset_list.
Proof. intros n args Hn Ho Hd; unfold lset_list; lin_cmd. Qed.
Lemma lin_ltrim : lin_named "ltrim" ltrim_list.
Proof. intros n args Hn Ho Hd; unfold ltrim_list; lin_cmd. Qed.
Lemma lin_rpop : lin_named "rpop" rpop_list.
Proof. intros n args Hn Ho Hd; unfold rpop_list, pop_list; lin_cmd. Qed.
Lemma lin_rpush : lin_named "rpush" rpush_list.
Proof. intros n args Hn Ho Hd; unfold rpush_list, push_list; lin_cmd. Qed.
Lemma lin_rpushx : lin_named "rpushx" rpushx_list.
Proof. intros n args Hn Ho Hd; unfold rpushx_list, pushx_list; lin_cmd. Qed.
Lemma lin_sadd : lin_named "sadd" sadd_set.
Proof. intros n args Hn Ho Hd; unfold sadd_set; lin_cmd. Qed.
Lemma lin_scard : lin_named "scard" scard_set.
Proof. intros n args Hn Ho Hd; unfold scard_set; lin_cmd. Qed.
Lemma lin_sismember : lin_named "sismember" sismember_set.
Proof. intros n args Hn Ho Hd; unfold sismember_set; lin_cmd. Qed.
Lemma lin_smembers : lin_named "smembers" smembers_set.
Proof. intros n args Hn Ho Hd; unfold smembers_set; lin_cmd. Qed.
Lemma lin_smove : lin_named "smove" smove_set.
Proof. intros n args Hn Ho Hd; unfold smove_set; lin_cmd. Qed.
Lemma lin_spop : lin_named "spop" spop_set.
Proof. intros n args Hn Ho Hd; unfold spop_set; lin_cmd. Qed.
Lemma lin_srandmember : lin_named "srandmember" srandmember_set.
Proof. intros n args Hn Ho Hd; unfold srandmember_set; lin_cmd. Qed.
Lemma lin_srem : lin_named "srem" srem_set.
Proof. intros n args Hn Ho Hd; unfold srem_set; lin_cmd. Qed.
Lemma is_named s n args : to_lower (str n) = B s -> cmd_is s (n :: args) = true.
Proof. intros E. unfold cmd_is. apply bool_decide_eq_true. exact E. Qed.
Lemma lin_keys : lin_named "keys" keys_key.
Proof. intros n args Hn (H & _ & _) _. rewrite (is_named _ _ _ Hn) in H. discriminate. Qed.
Lemma lin_setnx : lin_named "setnx" setnx_string.
Proof. intros n args Hn (_ & H & _) _. rewrite (is_named _ _ _ Hn) in H. discriminate. Qed.
Lemma lin_del : lin_named "del" del_key.
Proof.
  intros n args Hn (_ & _ & H) _. specialize (H (or_introl (is_named _ _ _ Hn))). destruct args as [|k [|]]; [constructor| |cbn in H; lia].
  cbn [del_key del_loop]. apply single_map. apply (single_dek _ _ HT). apply single_map with (g := fun n => 0 + n). lin_cmd.
Qed.
Lemma lin_exists : lin_named "exists" exists_key.
Proof.
  intros n args Hn (_ & _ & H) _. specialize (H (or_intror (or_introl (is_named _ _ _ Hn)))). destruct args as [|k [|]]; [constructor| |cbn in H; lia].
  cbn [exists_key exists_loop]. apply single_map. apply (single_dek _ _ HT). apply single_map with (g := fun n => 0 + n). lin_cmd.
Qed.
Lemma lin_mget : lin_named "mget" mget_string.
Proof.
  intros n args Hn (_ & _ & H) _. specialize (H (or_intror (or_intror (is_named _ _ _ Hn)))). destruct args as [|k [|]]; [constructor| |cbn in H; lia].
  cbn [mget_string mget_loop]. apply single_map. apply (single_dek _ _ HT). apply single_map with (g := fun n => [] ++ [n]). lin_cmd.
Qed.
Lemma lin_expire : lin_named "expire" expire_key.
Proof.
  intros n args Hn _ [Hd _]. specialize (Hd (or_introl (is_named _ _ _ Hn))). unfold expire_key.
  assert (HR : forall k v r o o', args = k :: v :: r -> single T (fun _ => True) lim Pre (expire_run k v o o')).
  { intros k v r o o' ->. specialize (Hd v eq_refl). unfold expire_run. destruct (atoi (str v)) as [m|] eqn:E; [|constructor].
    apply S_now. intros t Ht. assert (lim <= wrap64 (t + m)) by (eapply Hd; eauto). lin_cmd. }
  destruct args as [|k [|v [|o [|]]]]; try constructor; eapply HR; reflexivity.
Qed.
Lemma lin_setex : lin_named "setex" setex_string.
Proof.
  intros n args Hn _ [Hd _]. specialize (Hd (or_intror (is_named _ _ _ Hn))). unfold setex_string.
  destruct args as [|k [|v [|o [|]]]]; try constructor. specialize (Hd v eq_refl). apply (single_dek _ _ HT).
  destruct (atoi (str v)) as [m|] eqn:E; [|constructor].
  assert (forall t, T t -> lim <= wrap64 (t + m)) by (intros; eapply Hd; eauto). lin_cmd.
Qed.
Definition opts_far (o : sopts) : Prop :=
  (forall n t, o_ex o = Some n -> T t -> lim <= wrap64 (t + n)) /\ (forall n t, o_px o = Some n -> T t -> lim <= wrap64 (t + Z.quot n 1000)) /\
  (is_Some (o_ex o) -> (1 <= o_num o)%nat) /\ (is_Some (o_px o) -> (1 <= o_num o)%nat) /\ (is_Some (o_ex o) -> is_Some (o_px o) -> (1 < o_num o)%nat).
Lemma no_opts_far : opts_far no_opts.
Proof. unfold opts_far; cbn. repeat split; try discriminate; intros [? [=]]. Qed.
Lemma set_opts_far args : (forall i o, args !! i = Some o ->
     (to_lower (str o) = B "ex" -> forall v, args !! S i = Some v -> is_Some (atoi (str v)) /\ far T lim v) /\
     (to_lower (str o) = B "px" -> forall v, args !! S i = Some v -> far_ms T lim v)) ->
  forall o0 o, set_opts args o0 = SP_ok o -> opts_far o0 -> opts_far o.
Proof.
  remember (length args) as m eqn:Em. revert args Em. induction m as [m IH] using lt_wf_ind. intros args -> HA o0 o H H1.
  destruct args as [|a r]; [injection H as <-; auto|].
  assert (HR : forall o1, set_opts r o1 = SP_ok o -> opts_far o1 -> opts_far o).
  { intros o1. apply (IH (length r)); [cbn; lia|auto|]. intros i x Hx. apply (HA (S i) x Hx). }
  destruct (HA 0%nat a eq_refl) as [Hex Hpx]. cbn [set_opts] in H. cbv zeta in H. destruct H1 as (I1 & I2 & I3 & I4 & I5).
  destruct (beq (to_lower (str a)) (B "nx")); [eapply HR; [exact H|]; repeat split; auto|].
  destruct (beq (to_lower (str a)) (B "xx")); [eapply HR; [exact H|]; repeat split; auto|].
  destruct (beq (to_lower (str a)) (B "get")); [eapply HR; [exact H|]; repeat split; auto|].
  destruct (beq (to_lower (str a)) (B "ex")) eqn:E.
  { destruct r as [|v r']; [discriminate|]. apply bool_decide_eq_true in E. destruct (Hex E v eq_refl) as [[nv Ev] Hf].
    refine (IH (length r') _ r' eq_refl _ _ _ H _); [cbn; lia| |].
    - intros i x Hx. apply (HA (S (S i)) x Hx).
    - unfold opts_far; cbn. split; [|split; [exact I2|split; [intros; lia|split; [intros; lia|intros _ Hp; apply I4 in Hp; lia]]]].
      intros n t [= <-] Ht. unfold far, atoi in *. destruct (parse_int (str v)) as [q [|]]; [discriminate|]. cbn. eapply Hf; eauto. }
  destruct (beq (to_lower (str a)) (B "px")) eqn:E2.
  { destruct r as [|v r']; [discriminate|]. apply bool_decide_eq_true in E2. pose proof (Hpx E2 v eq_refl) as Hf.
    destruct (parse_int (str v)) as [q [|]] eqn:Ep; [discriminate|].
    refine (IH (length r') _ r' eq_refl _ _ _ H _); [cbn; lia| |].
    - intros i x Hx. apply (HA (S (S i)) x Hx).
    - unfold opts_far; cbn. split; [exact I1|split; [|split; [intros; lia|split; [intros; lia|intros Hp _; apply I3 in Hp; lia]]]].
      intros n t [= <-] Ht. eapply Hf; eauto. unfold atoi. rewrite Ep. reflexivity. }
  destruct (beq (to_lower (str a)) (B "exat") || beq (to_lower (str a)) (B "pxat")); [destruct (parse_int (str a)) as [? [|]]; [discriminate|injection H as <-; repeat split; auto]|].
  destruct (beq (to_lower (str a)) (B "keepttl")); [|discriminate]. eapply HR; [exact H|]. unfold opts_far; cbn.
  split; [exact I1|split; [exact I2|split; [intros; lia|split; [intros; lia|intros Hp _; apply I3 in Hp; lia]]]].
Qed.
Lemma lin_set : lin_named "set" set_string.
Proof.
  intros n args Hn _ [_ Hd]. specialize (Hd (is_named _ _ _ Hn)). unfold set_string. destruct args as [|k [|v args]]; try constructor.
  apply (single_dek _ _ HT). destruct (set_opts args no_opts) as [o|e|] eqn:E; try constructor.
  destruct (set_opts_far args) with (o0 := no_opts) (o := o) as (H1 & H2 & _); auto using no_opts_far; [intros i x Hx; apply (Hd (S (S (S i))) x); [lia|exact Hx]|].
  destruct (o_ex o) as [m|]; destruct (o_px o) as [m'|].
  - assert (forall t, T t -> lim <= wrap64 (t + m)) by (intros; eapply H1; eauto). assert (forall t, T t -> lim <= wrap64 (t + Z.quot m' 1000)) by (intros; eapply H2; eauto). lin_cmd.
  - assert (forall t, T t -> lim <= wrap64 (t + m)) by (intros; eapply H1; eauto). lin_cmd.
  - assert (forall t, T t -> lim <= wrap64 (t + Z.quot m' 1000)) by (intros; eapply H2; eauto). lin_cmd.
  - lin_cmd.
Qed.
Lemma lin_mset : lin_named "mset" mset_string.
Proof.
  intros n args Hn _ _. unfold mset_string. destruct args as [|k [|v r]]; try constructor.
  destruct (pairs_of (k :: v :: r)) as [ps|] eqn:E; [|constructor]. cbn in E. destruct (pairs_of r) as [p|]; [|discriminate]. injection E as <-.
  lin_cmd.
Qed.
Lemma lin_setop op s : lin_named s (setop_set op).
Proof.
  intros n args Hn _ _. unfold setop_set. destruct args as [|k r]; [constructor|]. apply (single_live_keys _ _ HT). cbn [app map]. lin_cmd.
Qed.
Lemma lin_setopstore op s : lin_named s (setopstore_set op).
Proof.
  intros n args Hn _ _. unfold setopstore_set. destruct args as [|d [|k r]]; try constructor. apply (single_dek _ _ HT). apply (single_live_keys _ _ HT). cbn [app map]. lin_cmd.
Qed.

Theorem lin_exec cmd : one_step cmd -> far_deadlines T lim cmd -> single T (fun _ => True) lim Pre (exec_in_db cmd).
Proof.
  refine (table_ind (fun cmd p => one_step cmd -> far_deadlines T lim cmd -> single T (fun _ => True) lim Pre p) _ _ _ cmd); clear cmd.
  - intros. constructor.
  - intros. constructor.
  - unfold cmd_table. repeat (apply List.Forall_cons; [cbn [fst snd]|]); [..|apply List.Forall_nil].
    + exact lin_ping.
    + exact lin_del.
    + exact lin_exists.
    + exact lin_keys.
    + exact lin_expire.
    + exact lin_persist.
    + exact lin_ttl.
    + exact lin_rename.
    + exact lin_type.
    + exact lin_set.
    + exact lin_get.
    + exact lin_getrange.
    + exact lin_setrange.
    + exact lin_mget.
    + exact lin_mset.
    + exact lin_setex.
    + exact lin_setnx.
    + exact lin_strlen.
    + exact lin_incr.
    + exact lin_incrby.
    + exact lin_decr.
    + exact lin_decrby.
    + exact lin_incrbyfloat.
    + exact lin_append.
    + exact lin_hdel.
    + exact lin_hexists.
    + exact lin_hget.
    + exact lin_hgetall.
    + exact lin_hincrby.
    + exact lin_hincrbyfloat.
    + exact lin_hkeys.
    + exact lin_hlen.
    + exact lin_hmget.
    + exact lin_hmset.
    + exact lin_hset.
    + exact lin_hsetnx.
    + exact lin_hvals.
    + exact lin_hstrlen.
    + exact lin_hrandfield.
    + exact lin_lindex.
    + exact lin_linsert.
    + exact lin_llen.
    + exact lin_lmove.
    + exact lin_lpop.
    + exact lin_lpos.
    + exact lin_lpush.
    + exact lin_lpushx.
    + exact lin_lrange.
    + exact lin_lrem.
    + exact lin_lset.
    + exact lin_ltrim.
    + exact lin_rpop.
    + exact lin_rpush.
    + exact lin_rpushx.
    + exact lin_sadd.
    + exact lin_scard.
    + apply lin_setop.
    + apply lin_setopstore.
    + apply lin_setop.
    + apply lin_setopstore.
    + exact lin_sismember.
    + exact lin_smembers.
    + exact lin_smove.
    + exact lin_spop.
    + exact lin_srandmember.
    + exact lin_srem.
    + apply lin_setop.
    + apply lin_setopstore.
Qed.

(** The commands touch only the keys they name. *)
Lemma single_restrict {A} K u s h' ph (p : prog A) : single T (fun _ => True) lim ph p -> forall h, wf K u s h' h p -> single T K lim ph p.
Proof.
  induction 1; intros h Hw; inversion Hw; subst; try (econstructor; eauto; fail).
  - eapply S_cntload with (g := g); eauto. eapply IHsingle. match goal with Hx : forall x, wf _ _ _ _ _ (k x) |- _ => specialize (Hx 0); rewrite H in Hx; inversion Hx; eauto end.
Qed.
Lemma lin_cmd_ok (K : bytes -> Prop) cmd : one_step cmd -> far_deadlines T lim cmd -> (forall k, k ∈ key_args cmd -> K k) -> lin_ok T K lim cmd.
Proof.
  intros H1 H2 H3. apply (single_restrict K (cmd_is "setnx" cmd) (cmd_is "keys" cmd) Idle) with (h := Idle).
  - apply lin_exec; auto.
  - eapply wf_mono; [exact (exec_wf cmd)| |auto..]. intros k [Hk|Hk]; auto. destruct H1 as [H1 _]. congruence.
Qed.
End WithParams2.

