(** The atomic commands read the clock at most once, deadline checks apart. *)
From Verif Require Export LinCmds.

Section WithParams.
Context {P : Setup} (T : Z -> Prop) (K : bytes -> Prop) (lim : Z).

Inductive once {A} : bool -> prog A -> Prop :=
| O_ret b a : once b (Ret a)
| O_crash b : once b Crash
| O_hang b : once b Hang
| O_now k : (forall t, T t -> once false (k t)) -> once true (Now k)
| O_range b l k : (forall l', once b (k l')) -> once b (Range l k)
| O_dead b key k q : K key -> once b q -> k None = q ->
    (forall t, lim <= t -> exists k2, k (Some t) = Now k2 /\ forall now, T now -> k2 now = q) -> once b (EGet key k)
| O_eget b key k : K key -> (forall x, (forall t, x = Some t -> lim <= t) -> once b (k x)) -> once b (EGet key k)
| O_dget b key k : (forall x, once b (k x)) -> once b (DGet key k)
| O_dset b key v k : (forall x, once b (k x)) -> once b (DSet key v k)
| O_dmut b key v k : once b k -> once b (DMut key v k)
| O_ddel b key k : (forall x, once b (k x)) -> once b (DDel key k)
| O_cntload b k : (forall c, once b (k c)) -> once b (CntLoad k)
| O_cntstore b n k : once b k -> once b (CntStore n k)
| O_eset b key t k : lim <= t -> once b k -> once b (ESet key t k)
| O_edel b key k : (forall x, once b (k x)) -> once b (EDel key k)
| O_acq b pos m k : once b k -> once b (Acq pos m k)
| O_rel b pos m k : once b k -> once b (Rel pos m k).

Lemma alive_set v e key t : lim <= t -> alive K lim (mkData v e) -> alive K lim (mkData v (<[key := t]> e)).
Proof.
  intros Ht H k t' Hk E. cbn in E. destruct (decide (k = key)) as [->|]; [rewrite lookup_insert in E; injection E as <-; auto|rewrite lookup_insert_ne in E by auto; eapply H; eauto].
Qed.
Lemma alive_del v e key : alive K lim (mkData v e) -> alive K lim (mkData v (delete key e)).
Proof. intros H k t' Hk E. cbn in E. apply lookup_delete_Some in E as [_ E]. eapply H; eauto. Qed.
(** A run with the clock going on is a run with the clock stopped. *)
Lemma once_runs {A} b (p : prog A) : once b p -> forall D out, alive K lim (data_of D) -> runs T D p out ->
  (b = false -> forall now, T now -> runs (eq now) D p out) /\ ((exists t, T t) -> exists now, T now /\ runs (eq now) D p out) /\
  (forall a D', out = Done a D' -> alive K lim (data_of D')).
Proof.
  assert (Hlift : forall A b D D' (p p' : prog A) out, (forall now, T now -> runs (eq now) D' p' out -> runs (eq now) D p out) ->
    (b = false -> forall now, T now -> runs (eq now) D' p' out) /\ ((exists t, T t) -> exists now, T now /\ runs (eq now) D' p' out) /\ (forall a D', out = Done a D' -> alive K lim (data_of D')) ->
    (b = false -> forall now, T now -> runs (eq now) D p out) /\ ((exists t, T t) -> exists now, T now /\ runs (eq now) D p out) /\ (forall a D', out = Done a D' -> alive K lim (data_of D'))).
  { clear. intros A b D D' p p' out H (H1 & H2 & H3). split; [auto|]. split; [|auto]. intros HT. destruct (H2 HT) as (now & Hn & R). eauto. }
  induction 1; intros D out HD R; inversion R; subst.
  1,2,3: (split; [intros; constructor|split; [intros [t Ht]; exists t; split; [exact Ht|constructor]|intros a' D' [= -> ->]; auto]]); intros; discriminate.
  - match goal with Hr : runs T D (k ?t) out, Ht : T ?t |- _ => rename Hr into R'; rename Ht into HTt end. destruct (H0 _ HTt _ _ HD R') as (H1 & _ & H3).
    split; [discriminate|]. split; [|exact H3]. intros _. eexists. split; [exact HTt|]. econstructor; [reflexivity|]. apply H1; auto.
  - eapply Hlift; [|eapply H0; [exact HD|eassumption]]. intros now _ R'. econstructor; eauto.
  - match goal with Hr : runs T D (k _) out |- _ => rename Hr into R' end.
    destruct (exps D !! key) as [t|] eqn:E.
    + destruct (H2 t (HD key t H E)) as (k2 & E2 & Hq). rewrite E2 in R'. inversion R'; subst. rewrite Hq in * by auto.
      eapply Hlift; [|eapply IHonce; [exact HD|eassumption]]. intros now Hn R2. constructor. rewrite E, E2. econstructor; [reflexivity|]. rewrite Hq; auto.
    + eapply Hlift; [|eapply IHonce; [exact HD|exact R']]. intros now Hn R2. constructor. rewrite E. exact R2.
  - eapply Hlift; [|eapply H1; [|exact HD|eassumption]]; [intros; constructor; auto|]. intros t E. eapply HD; eauto.
  - eapply Hlift; [|eapply H0; [exact HD|eassumption]]. intros; constructor; auto.
  - eapply Hlift; [|eapply H0; [|eassumption]]; [intros; constructor; auto|exact HD].
  - eapply Hlift; [|eapply IHonce; [|eassumption]]; [intros; constructor; auto|exact HD].
  - eapply Hlift; [|eapply H0; [|eassumption]]; [intros; constructor; auto|exact HD].
  - eapply Hlift; [|eapply H0; [exact HD|eassumption]]. intros; constructor; auto.
  - eapply Hlift; [|eapply IHonce; [|eassumption]]; [intros; constructor; auto|exact HD].
  - eapply Hlift; [|eapply IHonce; [|eassumption]]; [intros; constructor; auto|apply alive_set; auto].
  - eapply Hlift; [|eapply H0; [|eassumption]]; [intros; constructor; auto|apply alive_del; auto].
  - eapply Hlift; [|eapply IHonce; [exact HD|eassumption]]. intros; constructor; auto.
  - eapply Hlift; [|eapply IHonce; [exact HD|eassumption]]. intros; constructor; auto.
Qed.
End WithParams.

Section WithParams1.
Context {P : Setup} (T : Z -> Prop) (lim : Z).
Hypothesis HT : forall t, T t -> t <= lim.
Notation once := (once T (fun _ => True) lim).
Lemma once_weaken {A} b (p : prog A) : once b p -> once true p.
Proof. induction 1; try (econstructor; eauto; fail). Qed.
Lemma once_bind {A C} b (p : prog A) (f : A -> prog C) : once false p -> (forall a, once b (f a)) -> once b (pbind p f).
Proof.
  intros Hp Hf. remember false as b0 eqn:E. induction Hp; subst; cbn; auto; try (econstructor; eauto; fail); try discriminate.
  eapply O_dead; [exact I|apply IHHp; auto|reflexivity|]. intros t Ht. destruct (H1 t Ht) as (k2 & -> & Hq). cbn. eexists. split; [reflexivity|].
  intros now Hn. cbn. rewrite Hq; auto.
Qed.
Lemma once_bind_l {A C} b (p : prog A) (f : A -> prog C) : once b p -> (forall a, once false (f a)) -> once b (pbind p f).
Proof.
  intros Hp Hf. induction Hp; cbn; auto; try (econstructor; eauto; fail).
  - destruct b; auto. eapply once_weaken; eauto.
  - subst. eapply O_dead; [exact I|apply IHHp; auto|reflexivity|]. intros t Ht. destruct (H1 t Ht) as (k2 & -> & Hq). cbn. eexists. split; [reflexivity|].
    intros now Hn. cbn. rewrite Hq; auto.
Qed.
Lemma once_now_bind {C} (f : Z -> prog C) : (forall t, T t -> once false (f t)) -> once true (pbind now_unix f).
Proof. intros H. constructor. auto. Qed.
Lemma once_exp_bind {C} b key (f : option Z -> prog C) : (forall x, (forall t, x = Some t -> lim <= t) -> once b (f x)) -> once b (pbind (exp_get key) f).
Proof. intros H. constructor; auto. Qed.
Lemma once_exp_get b key : once b (exp_get key).
Proof. constructor; auto. intros; constructor. Qed.
Lemma once_dict_get b key : once b (dict_get key).
Proof. constructor. intros; constructor. Qed.
Lemma once_dict_set b key v : once b (dict_set key v).
Proof. constructor. intros []; [|constructor]. constructor. intros. constructor. constructor. Qed.
Lemma once_dict_del b key : once b (dict_del key).
Proof. constructor. intros []; [|constructor]. constructor. intros. constructor. constructor. Qed.
Lemma once_obj_put b key v : once b (obj_put key v).
Proof. constructor. constructor. Qed.
Lemma once_delete_expire b key : once b (delete_expire key).
Proof. constructor. intros; constructor. Qed.
Lemma once_set_expire b key t : lim <= t -> once b (set_expire key t).
Proof. intros. constructor. intros []; [|constructor]. constructor; auto. constructor. Qed.
Lemma once_now_unix : once true now_unix.
Proof. constructor. intros; constructor. Qed.
Lemma once_draw_many b n l : once b (draw_many n l).
Proof. induction n; cbn [draw_many]; [constructor|]. constructor. intros. destruct l'; [constructor|]. apply once_bind_l; auto. intros; constructor. Qed.
Lemma once_pop_many b n x : once b (pop_many n x).
Proof.
  revert x. induction n; intros x; cbn [pop_many]; [constructor|]. apply once_bind; [|intros [? ?]; apply once_bind_l; auto; intros [? ?]; constructor].
  unfold set_pop. constructor. intros l'. destruct l'; constructor.
Qed.
Lemma once_random_keys b sz l c : once b (random_keys sz l c).
Proof. unfold random_keys. repeat (match goal with |- once _ (match ?x with _ => _ end) => destruct x end); try constructor; auto using once_draw_many; intros; constructor. Qed.
Lemma once_mset_loop b l : once b (mset_loop l).
Proof.
  induction l as [|[k v] l IH]; cbn [mset_loop]; [constructor|]. apply once_bind; [apply once_delete_expire|]. intros _.
  apply once_bind; [apply once_dict_set|]. auto.
Qed.
Lemma once_read_sets b m ks acc : once b (read_sets m ks acc).
Proof.
  revert acc. induction ks as [|k ks IH]; intros acc; cbn [read_sets]; [constructor|]. apply once_bind; [apply once_dict_get|].
  intros [[]|]; auto; constructor.
Qed.
Lemma once_with_lock {A} b m key (p : prog A) : once b p -> once b (with_lock m key p).
Proof.
  intros Hb. unfold with_lock, lock, unlock. cbn. constructor. apply once_bind_l; auto. intros a. cbn. constructor. constructor.
Qed.
Lemma once_acq_all {A} b m l (k : prog A) : once b k -> once b (pbind (acq_all m l) (fun _ => k)).
Proof. intros Hk. induction l; cbn; auto. constructor. auto. Qed.
Lemma once_rel_all {A} b m l (k : prog A) : once b k -> once b (pbind (rel_all m l) (fun _ => k)).
Proof. intros Hk. induction l; cbn; auto. constructor. auto. Qed.
Lemma once_with_mlock {A} b m ks (p : prog A) : once b p -> once b (with_mlock m ks p).
Proof.
  intros Hb. unfold with_mlock, mlock, munlock. apply once_acq_all. apply once_bind_l; auto. intros a. apply once_rel_all. constructor.
Qed.
(** Nothing has expired. *)
Lemma once_dek {A} b key (f : bool -> prog A) : once b (f false) -> once b (pbind (delete_expired_key key) f).
Proof.
  intros H. unfold delete_expired_key, check_expire. cbn. eapply O_dead; [exact I|exact H|reflexivity|]. intros t Ht. cbn. eexists. split; [reflexivity|].
  intros now Hn. cbn. apply HT in Hn. replace (t <? now) with false by (symmetry; apply Z.ltb_ge; lia). reflexivity.
Qed.
Lemma once_dek2 {A C} b key (g : bool -> prog C) (f : C -> prog A) : once b (pbind (g false) f) -> once b (pbind (pbind (delete_expired_key key) g) f).
Proof.
  intros H. unfold delete_expired_key, check_expire. cbn. eapply O_dead; [exact I|exact H|reflexivity|]. intros t Ht. cbn. eexists. split; [reflexivity|].
  intros now Hn. cbn. apply HT in Hn. replace (t <? now) with false by (symmetry; apply Z.ltb_ge; lia). reflexivity.
Qed.
Lemma once_live_keys {A} b ks acc (f : list bytes -> prog A) : once b (f (acc ++ map str ks)) -> once b (pbind (live_keys ks acc) f).
Proof.
  revert acc. induction ks as [|k ks IH]; intros acc H; cbn [live_keys].
  - cbn in *. rewrite app_nil_r in H. auto.
  - apply once_dek2. apply IH. rewrite <- app_assoc. exact H.
Qed.
End WithParams1.

Ltac once_atom := first [apply once_exp_get | apply once_dict_get | apply once_dict_set | apply once_dict_del | apply once_obj_put | apply once_delete_expire
  | apply once_now_unix | apply once_draw_many | apply once_pop_many | apply once_random_keys | apply once_mset_loop | apply once_read_sets | apply once_set_expire; solve [auto]].
Ltac once_step :=
  match goal with
  | |- once _ _ _ _ (Ret _) => apply O_ret
  | |- once _ _ _ _ Crash => apply O_crash
  | |- once _ _ _ _ Hang => apply O_hang
  | |- once _ _ _ _ (Range _ _) => apply O_range; intros ?
  | |- once _ _ _ _ (with_lock _ _ _) => apply once_with_lock
  | |- once _ _ _ _ (with_mlock _ _ _) => apply once_with_mlock
  | |- once _ _ _ _ (let '(_, _) := ?x in _) => destruct x
  | |- once _ _ _ _ (match ?x with _ => _ end) => destruct x
  | |- once _ _ _ _ _ => once_atom
  | HT : forall t, ?T t -> t <= _ |- once ?T _ _ _ (pbind (delete_expired_key _) _) => apply (once_dek _ _ HT)
  | |- once _ _ _ true (pbind now_unix _) => apply once_now_bind; intros ? ?
  | |- once _ _ _ _ (pbind (exp_get _) _) => apply once_exp_bind; intros ? ?
  | |- once _ _ _ _ (pbind ?p _) => match p with context [now_unix] => apply once_bind_l; [|intros ?] end
  | |- once _ _ _ _ (pbind _ _) => apply once_bind; [|intros ?]
  | H : context [once] |- once _ _ _ _ _ => eapply H
  | |- forall _, _ => intros ?
  | |- once _ _ _ _ _ => progress cbv zeta beta
  | |- once _ _ _ _ _ => progress wf_unf
  end.
Ltac once_cmd := repeat once_step.

Section WithParams2.
Context {P : Setup} (T : Z -> Prop) (lim : Z).
Hypothesis HT : forall t, T t -> t <= lim.
Definition once_named (s : string) (ex : command -> prog rdata) : Prop :=
  forall n args, to_lower (str n) = B s -> one_step (n :: args) -> far_deadlines T lim (n :: args) -> once T (fun _ => True) lim true (ex (n :: args)).
Lemma once_ping : once_named "ping" ping_keys.
Proof. intros n args Hn Ho Hd; unfold ping_keys; once_cmd. Qed.
Lemma once_persist : once_named "persist" persist_key.
Proof. intros n args Hn Ho Hd; unfold persist_key; once_cmd. Qed.
Lemma once_ttl : once_named "ttl" ttl_key.
Proof. intros n args Hn Ho Hd; unfold ttl_key; once_cmd. Qed.
Lemma once_rename : once_named "rename" rename_key.
Proof. intros n args Hn Ho Hd; unfold rename_key; once_cmd. Qed.
Lemma once_type : once_named "type" type_key.
Proof. intros n args Hn Ho Hd; unfold type_key; once_cmd. Qed.
Lemma once_get : once_named "get" get_string.
Proof. intros n args Hn Ho Hd; unfold get_string; once_cmd. Qed.
Lemma once_getrange : once_named "getrange" getrange_string.
Proof. intros n args Hn Ho Hd; unfold getrange_string; once_cmd. Qed.
Lemma once_setrange : once_named "setrange" setrange_string.
Proof. intros n args Hn Ho Hd; unfold setrange_string; once_cmd. Qed.
Lemma once_strlen : once_named "strlen" strlen_string.
Proof. intros n args Hn Ho Hd; unfold strlen_string; once_cmd. Qed.
Lemma once_incr : once_named "incr" incr_string.
Proof. intros n args Hn Ho Hd; unfold incr_string; once_cmd. Qed.
Lemma once_incrby : once_named "incrby" incrby_string.
Proof. intros n args Hn Ho Hd; unfold incrby_string; once_cmd. Qed.
Lemma once_decr : once_named "decr" decr_string.
Proof. intros n args Hn Ho Hd; unfold decr_string; once_cmd. Qed.
Lemma once_decrby : once_named "decrby" decrby_string.
Proof. intros n args Hn Ho Hd; unfold decrby_string; once_cmd. Qed.
Lemma once_incrbyfloat : once_named "incrbyfloat" incrbyfloat_string.
Proof. intros n args Hn Ho Hd; unfold incrbyfloat_string; once_cmd. Qed.
Lemma once_append : once_named "append" append_string.
Proof. intros n args Hn Ho Hd; unfold append_string; once_cmd. Qed.
Lemma once_hdel : once_named "hdel" hdel_hash.
Proof. intros n args Hn Ho Hd; unfold hdel_hash; once_cmd. Qed.
Lemma once_hexists : once_named "hexists" hexists_hash.
Proof. intros n args Hn Ho Hd; unfold hexists_hash; once_cmd. Qed.
Lemma once_hget : once_named "hget" hget_hash.
Proof. intros n args Hn Ho Hd; unfold hget_hash; once_cmd. Qed.
Lemma once_hgetall : once_named "hgetall" hgetall_hash.
Proof. intros n args Hn Ho Hd; unfold hgetall_hash; once_cmd. Qed.
Lemma once_hincrby : once_named "hincrby" hincrby_hash.
Proof. intros n args Hn Ho Hd; unfold hincrby_hash; once_cmd. Qed.
Lemma once_hincrbyfloat : once_named "hincrbyfloat" hincrbyfloat_hash.
Proof. intros n args Hn Ho Hd; unfold hincrbyfloat_hash; once_cmd. Qed.
Lemma once_hkeys : once_named "hkeys" hkeys_hash.
Proof. intros n args Hn Ho Hd; unfold hkeys_hash; once_cmd. Qed.
Lemma once_hlen : once_named "hlen" hlen_hash.
Proof. intros n args Hn Ho Hd; unfold hlen_hash; once_cmd. Qed.
Lemma once_hmget : once_named "hmget" hmget_hash.
Proof. intros n args Hn Ho Hd; unfold hmget_hash; once_cmd. Qed.
Lemma once_hmset : once_named "hmset" hmset_hash.
Proof. intros n args Hn Ho Hd; unfold hmset_hash, hset_common; once_cmd. Qed.
Lemma once_hset : once_named "hset" hset_hash.
Proof. intros n args Hn Ho Hd; unfold hset_hash, hset_common; once_cmd. Qed.
Lemma once_hsetnx : once_named "hsetnx" hsetnx_hash.
Proof. intros n args Hn Ho Hd; unfold hsetnx_hash; once_cmd. Qed.
Lemma once_hvals : once_named "hvals" hvals_hash.
Proof. intros n args Hn Ho Hd; unfold hvals_hash; once_cmd. Qed.
Lemma once_hstrlen : once_named "hstrlen" hstrlen_hash.
Proof. intros n args Hn Ho Hd; unfold hstrlen_hash; once_cmd. Qed.
Lemma once_hrandfield : once_named "hrandfield" hrandfield_hash.
Proof. intros n args Hn Ho Hd; unfold hrandfield_hash; once_cmd. Qed.
Lemma once_lindex : once_named "lindex" lindex_list.
Proof. intros n args Hn Ho Hd; unfold lindex_list; once_cmd. Qed.
Lemma once_linsert : once_named "linsert" linsert_list.
Proof. intros n args Hn Ho Hd; unfold linsert_list; once_cmd. Qed.
Lemma once_llen : once_named "llen" llen_list.
Proof. intros n args Hn Ho Hd; unfold llen_list; once_cmd. Qed.
Lemma once_lmove : once_named "lmove" lmove_list.
Proof. intros n args Hn Ho Hd; unfold lmove_list; once_cmd. Qed.
Lemma once_lpop : once_named "lpop" lpop_list.
Proof. intros n args Hn Ho Hd; unfold lpop_list, pop_list; once_cmd. Qed.
Lemma once_lpos : once_named "lpos" lpos_list.
Proof. intros n args Hn Ho Hd; unfold lpos_list; once_cmd. Qed.
Lemma once_lpush : once_named "lpush" lpush_list.
Proof. intros n args Hn Ho Hd; unfold lpush_list, push_list; once_cmd. Qed.
Lemma once_lpushx : once_named "lpushx" lpushx_list.
Proof. intros n args Hn Ho Hd; unfold lpushx_list, pushx_list; once_cmd. Qed.
Lemma once_lrange : once_named "lrange" lrange_list.
Proof. intros n args Hn Ho Hd; unfold lrange_list; once_cmd. Qed.
Lemma once_lrem : once_named "lrem" lrem_list.
Proof. intros n args Hn Ho Hd; unfold lrem_list; once_cmd. Qed.
Lemma once_lset : once_named "lset" lset_list.
Proof. intros n args Hn Ho Hd; unfold lset_list; once_cmd. Qed.
Lemma once_ltrim : once_named "ltrim" ltrim_list.
Proof. intros n args Hn Ho Hd; unfold ltrim_list; once_cmd. Qed.
Lemma once_rpop : once_named "rpop" rpop_list.
Proof. intros n args Hn Ho Hd; unfold rpop_list, pop_list; once_cmd. Qed.
Lemma once_rpush : once_named "rpush" rpush_list.
Proof. intros n args Hn Ho Hd; unfold rpush_list, push_list; once_cmd. Qed.
Lemma once_rpushx : once_named "rpushx" rpushx_list.
Proof. intros n args Hn Ho Hd; unfold rpushx_list, pushx_list; once_cmd. Qed.
Lemma once_sadd : once_named "sadd" sadd_set.
Proof. intros n args Hn Ho Hd; unfold sadd_set; once_cmd. Qed.
Lemma once_scard : once_named "scard" scard_set.
Proof. intros n args Hn Ho Hd; unfold scard_set; once_cmd. Qed.
Lemma once_sismember : once_named "sismember" sismember_set.
Proof. intros n args Hn Ho Hd; unfold sismember_set; once_cmd. Qed.
Lemma once_smembers : once_named "smembers" smembers_set.
Proof. intros n args Hn Ho Hd; unfold smembers_set; once_cmd. Qed.
Lemma once_smove : once_named "smove" smove_set.
Proof. intros n args Hn Ho Hd; unfold smove_set; once_cmd. Qed.
Lemma once_spop : once_named "spop" spop_set.
Proof. intros n args Hn Ho Hd; unfold spop_set; once_cmd. Qed.
Lemma once_srandmember : once_named "srandmember" srandmember_set.
Proof. intros n args Hn Ho Hd; unfold srandmember_set; once_cmd. Qed.
Lemma once_srem : once_named "srem" srem_set.
Proof. intros n args Hn Ho Hd; unfold srem_set; once_cmd. Qed.
Lemma once_keys : once_named "keys" keys_key.
Proof. intros n args Hn (H & _ & _) _. rewrite (is_named _ _ _ Hn) in H. discriminate. Qed.
Lemma once_setnx : once_named "setnx" setnx_string.
Proof. intros n args Hn (_ & H & _) _. rewrite (is_named _ _ _ Hn) in H. discriminate. Qed.
Lemma once_del : once_named "del" del_key.
Proof.
  intros n args Hn (_ & _ & H) _. specialize (H (or_introl (is_named _ _ _ Hn))). destruct args as [|k [|]]; [constructor| |cbn in H; lia].
  cbn [del_key del_loop]. apply once_bind_l; [|intros; apply O_ret]. apply (once_dek _ _ HT). apply once_bind_l; [|intros; apply O_ret]. once_cmd.
Qed.
Lemma once_exists : once_named "exists" exists_key.
Proof.
  intros n args Hn (_ & _ & H) _. specialize (H (or_intror (or_introl (is_named _ _ _ Hn)))). destruct args as [|k [|]]; [constructor| |cbn in H; lia].
  cbn [exists_key exists_loop]. apply once_bind_l; [|intros; apply O_ret]. apply (once_dek _ _ HT). apply once_bind_l; [|intros; apply O_ret]. once_cmd.
Qed.
Lemma once_mget : once_named "mget" mget_string.
Proof.
  intros n args Hn (_ & _ & H) _. specialize (H (or_intror (or_intror (is_named _ _ _ Hn)))). destruct args as [|k [|]]; [constructor| |cbn in H; lia].
  cbn [mget_string mget_loop]. apply once_bind_l; [|intros; apply O_ret]. apply (once_dek _ _ HT). apply once_bind_l; [|intros; apply O_ret]. once_cmd.
Qed.
Lemma once_expire : once_named "expire" expire_key.
Proof.
  intros n args Hn _ [Hd _]. specialize (Hd (or_introl (is_named _ _ _ Hn))). unfold expire_key.
  assert (HR : forall k v r o o', args = k :: v :: r -> once T (fun _ => True) lim true (expire_run k v o o')).
  { intros k v r o o' ->. specialize (Hd v eq_refl). unfold expire_run. destruct (atoi (str v)) as [m|] eqn:E; [|constructor].
    apply O_now. intros t Ht. assert (lim <= wrap64 (t + m)) by (eapply Hd; eauto). once_cmd. }
  destruct args as [|k [|v [|o [|]]]]; try (apply O_ret); eapply HR; reflexivity.
Qed.
Lemma once_setex : once_named "setex" setex_string.
Proof.
  intros n args Hn _ [Hd _]. specialize (Hd (or_intror (is_named _ _ _ Hn))). unfold setex_string.
  destruct args as [|k [|v [|o [|]]]]; try (apply O_ret). specialize (Hd v eq_refl). apply (once_dek _ _ HT).
  destruct (atoi (str v)) as [m|] eqn:E; [|constructor].
  assert (forall t, T t -> lim <= wrap64 (t + m)) by (intros; eapply Hd; eauto). once_cmd.
Qed.
Lemma once_set : once_named "set" set_string.
Proof.
  intros n args Hn _ [_ Hd]. specialize (Hd (is_named _ _ _ Hn)). unfold set_string. destruct args as [|k [|v args]]; try (apply O_ret).
  apply (once_dek _ _ HT). destruct (set_opts args no_opts) as [o|e|] eqn:E; [|apply O_ret|apply O_crash].
  destruct (set_opts_far T lim args) with (o0 := no_opts) (o := o) as (H1 & H2 & _ & _ & H3); auto using no_opts_far; [intros i x Hx; apply (Hd (S (S (S i))) x); [lia|exact Hx]|].
  destruct (o_ex o) as [m|]; destruct (o_px o) as [m'|].
  - replace (Nat.ltb 1 (o_num o)) with true by (symmetry; apply Nat.ltb_lt; apply H3; eauto). rewrite orb_true_r. apply O_ret.
  - assert (forall t, T t -> lim <= wrap64 (t + m)) by (intros; eapply H1; eauto). once_cmd.
  - assert (forall t, T t -> lim <= wrap64 (t + Z.quot m' 1000)) by (intros; eapply H2; eauto). once_cmd.
  - once_cmd.
Qed.
Lemma once_mset : once_named "mset" mset_string.
Proof.
  intros n args Hn _ _. unfold mset_string. destruct args as [|k [|v r]]; try (apply O_ret).
  destruct (pairs_of (k :: v :: r)) as [ps|] eqn:E; [|constructor]. cbn in E. destruct (pairs_of r) as [p|]; [|discriminate]. injection E as <-.
  once_cmd.
Qed.
Lemma once_setop op s : once_named s (setop_set op).
Proof.
  intros n args Hn _ _. unfold setop_set. destruct args as [|k r]; [constructor|]. apply (once_live_keys _ _ HT). cbn [app map]. once_cmd.
Qed.
Lemma once_setopstore op s : once_named s (setopstore_set op).
Proof.
  intros n args Hn _ _. unfold setopstore_set. destruct args as [|d [|k r]]; try (apply O_ret). apply (once_dek _ _ HT). apply (once_live_keys _ _ HT). cbn [app map]. once_cmd.
Qed.

Theorem once_exec cmd : one_step cmd -> far_deadlines T lim cmd -> once T (fun _ => True) lim true (exec_in_db cmd).
Proof.
  refine (table_ind (fun cmd p => one_step cmd -> far_deadlines T lim cmd -> once T (fun _ => True) lim true p) _ _ _ cmd); clear cmd.
  - intros. constructor.
  - intros. constructor.
  - unfold cmd_table. repeat (apply List.Forall_cons; [cbn [fst snd]|]); [..|apply List.Forall_nil].
    + exact once_ping.
    + exact once_del.
    + exact once_exists.
    + exact once_keys.
    + exact once_expire.
    + exact once_persist.
    + exact once_ttl.
    + exact once_rename.
    + exact once_type.
    + exact once_set.
    + exact once_get.
    + exact once_getrange.
    + exact once_setrange.
    + exact once_mget.
    + exact once_mset.
    + exact once_setex.
    + exact once_setnx.
    + exact once_strlen.
    + exact once_incr.
    + exact once_incrby.
    + exact once_decr.
    + exact once_decrby.
    + exact once_incrbyfloat.
    + exact once_append.
    + exact once_hdel.
    + exact once_hexists.
    + exact once_hget.
    + exact once_hgetall.
    + exact once_hincrby.
    + exact once_hincrbyfloat.
    + exact once_hkeys.
    + exact once_hlen.
    + exact once_hmget.
    + exact once_hmset.
    + exact once_hset.
    + exact once_hsetnx.
    + exact once_hvals.
    + exact once_hstrlen.
    + exact once_hrandfield.
    + exact once_lindex.
    + exact once_linsert.
    + exact once_llen.
    + exact once_lmove.
    + exact once_lpop.
    + exact once_lpos.
    + exact once_lpush.
    + exact once_lpushx.
    + exact once_lrange.
    + exact once_lrem.
    + exact once_lset.
    + exact once_ltrim.
    + exact once_rpop.
    + exact once_rpush.
    + exact once_rpushx.
    + exact once_sadd.
    + exact once_scard.
    + apply once_setop.
    + apply once_setopstore.
    + apply once_setop.
    + apply once_setopstore.
    + exact once_sismember.
    + exact once_smembers.
    + exact once_smove.
    + exact once_spop.
    + exact once_srandmember.
    + exact once_srem.
    + apply once_setop.
    + apply once_setopstore.
Qed.

Lemma once_restrict {A} K u s h' b (p : prog A) : once T (fun _ => True) lim b p -> forall h, wf K u s h' h p -> once T K lim b p.
Proof.
  induction 1; intros h Hw; inversion Hw; subst; try (econstructor; eauto; fail).
Qed.
Lemma once_ok (K : bytes -> Prop) cmd : one_step cmd -> far_deadlines T lim cmd -> (forall k, k ∈ key_args cmd -> K k) -> once T K lim true (exec_in_db cmd).
Proof.
  intros H1 H2 H3. apply (once_restrict K (cmd_is "setnx" cmd) (cmd_is "keys" cmd) Idle) with (h := Idle).
  - apply once_exec; auto.
  - eapply wf_mono; [exact (exec_wf cmd)| |auto..]. intros k [Hk|Hk]; auto. destruct H1 as [H1 _]. congruence.
Qed.
End WithParams2.
