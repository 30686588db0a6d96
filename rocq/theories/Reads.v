(** Read commands change nothing observable; deadlines are only set by the commands meant to set them. *)
From Verif Require Export Pres SpecGeneric.

Section WithParams.
Context {P : Setup}.

Definition reads {A} (now : Z) (p : prog A) : Prop := pres (eq now) (fun d d' => sim now d' d) p.

Lemma reads_bind {A C} now (p : prog A) (f : A -> prog C) :
  reads now p -> (forall a, reads now (f a)) -> reads now (pbind p f).
Proof. intros. apply pres_bind; auto. intros a b c Hab Hbc. eapply sim_trans; eauto. Qed.
Lemma reads_ret {A} now (a : A) : reads now (Ret a).
Proof. apply pres_ret. intros; apply sim_refl. Qed.
Lemma reads_crash {A} now : reads now (@Crash A).
Proof. apply pres_crash. Qed.
Lemma reads_hang {A} now : reads now (@Hang A).
Proof. apply pres_hang. Qed.
Lemma reads_range {A} now l (k : list bytes -> prog A) : (forall l', reads now (k l')) -> reads now (Range l k).
Proof. apply pres_range. Qed.
Lemma reads_dseg {A} now i (k : list bytes -> prog A) : (forall l', reads now (k l')) -> reads now (DSeg i k).
Proof. apply pres_dseg. Qed.
Lemma reads_cntload {A} now (k : Z -> prog A) : (forall l', reads now (k l')) -> reads now (CntLoad k).
Proof. apply pres_cntload. Qed.
Lemma reads_with_lock {A} now m k (body : prog A) : reads now body -> reads now (with_lock m k body).
Proof. apply pres_with_lock. Qed.
Lemma reads_with_mlock {A} now m k (body : prog A) : reads now body -> reads now (with_mlock m k body).
Proof. apply pres_with_mlock. Qed.
Lemma reads_dict_get now k : reads now (dict_get k).
Proof. apply pres_dict_get. intros; apply sim_refl. Qed.
Lemma reads_exp_get now k : reads now (exp_get k).
Proof. apply pres_exp_get. intros; apply sim_refl. Qed.
Lemma reads_now_unix now : reads now now_unix.
Proof. apply pres_now_unix. intros; apply sim_refl. Qed.
Lemma reads_purge now k : reads now (delete_expired_key k).
Proof.
  intros d HI. rewrite wp_bare, wp_purge. cbn. destruct (expired now d k) eqn:E.
  - split; [apply inv_purge; auto|]. apply sim_purge; auto.
  - split; auto. apply sim_refl.
Qed.
End WithParams.

Ltac rd_step :=
  match goal with
  | |- reads _ (Ret _) => apply reads_ret
  | |- reads _ Crash => apply reads_crash
  | |- reads _ Hang => apply reads_hang
  | |- reads _ (Range _ _) => apply reads_range; intros ?
  | |- reads _ (DSeg _ _) => apply reads_dseg; intros ?
  | |- reads _ (CntLoad _) => apply reads_cntload; intros ?
  | |- reads _ (with_lock _ _ _) => apply reads_with_lock
  | |- reads _ (with_mlock _ _ _) => apply reads_with_mlock
  | |- reads _ (let '(_, _) := ?x in _) => destruct x
  | |- reads _ (match ?x with _ => _ end) => destruct x
  | |- reads _ (dict_get _) => apply reads_dict_get
  | |- reads _ (exp_get _) => apply reads_exp_get
  | |- reads _ now_unix => apply reads_now_unix
  | |- reads _ (delete_expired_key _) => apply reads_purge
  | H : context [reads] |- reads _ _ => eapply H
  | |- reads _ (pbind _ _) => eapply reads_bind; [|intros ?]
  | |- forall _, _ => intros ?
  | |- reads _ _ => progress cbv zeta beta
  end.
Ltac rd_go := repeat rd_step.

Section Cmds.
Context {P : Setup}.
Implicit Types now : Z.
Lemma rd_exists_loop now ks n : reads now (exists_loop ks n).
Proof. revert n. induction ks as [|k ks IH]; intros; cbn [exists_loop]; rd_go. Qed.
Lemma rd_mget_loop now ks n : reads now (mget_loop ks n).
Proof. revert n. induction ks as [|k ks IH]; intros; cbn [mget_loop]; rd_go. Qed.
Lemma rd_keys_loop now p ks : reads now (keys_loop p ks).
Proof. induction ks as [|k ks IH]; intros; cbn [keys_loop]; rd_go. Qed.
Lemma rd_live_keys now ks acc : reads now (live_keys ks acc).
Proof. revert acc. induction ks as [|k ks IH]; intros; cbn [live_keys]; rd_go. Qed.
Lemma rd_read_sets now m ks acc : reads now (read_sets m ks acc).
Proof. revert acc. induction ks as [|k ks IH]; intros; cbn [read_sets]; rd_go. Qed.
Lemma rd_keys_fill now n i c : reads now (keys_fill n i c).
Proof. revert i c. induction n; intros; cbn [keys_fill]; rd_go. Qed.
Lemma rd_draw_many now n l : reads now (draw_many n l).
Proof. induction n; cbn [draw_many]; rd_go. Qed.
Lemma rd_random_keys now sz l c : reads now (random_keys sz l c).
Proof. pose proof rd_draw_many. unfold random_keys. rd_go. Qed.

(** The read commands. *)

Ltac rd_unf :=
  unfold hash_read, set_read, list_read, hrandfield_run, srandmember_run, setop_set, dict_keys in *.
Ltac rd_cmd := repeat first [rd_step | apply rd_exists_loop
  | apply rd_mget_loop | apply rd_keys_loop | apply rd_live_keys | apply rd_read_sets
  | apply rd_keys_fill | apply rd_random_keys | progress rd_unf].
Tactic Notation "rd" reference(f) := intros; unfold f; rd_cmd.
Lemma rd_get_string now cmd : reads now (get_string cmd).
Proof. rd get_string. Qed.
Lemma rd_getrange_string now cmd : reads now (getrange_string cmd).
Proof. rd getrange_string. Qed.
Lemma rd_strlen_string now cmd : reads now (strlen_string cmd).
Proof. rd strlen_string. Qed.
Lemma rd_mget_string now cmd : reads now (mget_string cmd).
Proof. rd mget_string. Qed.
Lemma rd_exists_key now cmd : reads now (exists_key cmd).
Proof. rd exists_key. Qed.
Lemma rd_type_key now cmd : reads now (type_key cmd).
Proof. rd type_key. Qed.
Lemma rd_ttl_key now cmd : reads now (ttl_key cmd).
Proof. rd ttl_key. Qed.
Lemma rd_keys_key now cmd : reads now (keys_key cmd).
Proof. rd keys_key. Qed.
Lemma rd_ping_keys now cmd : reads now (ping_keys cmd).
Proof. rd ping_keys. Qed.
Lemma rd_hget_hash now cmd : reads now (hget_hash cmd).
Proof. rd hget_hash. Qed.
Lemma rd_hmget_hash now cmd : reads now (hmget_hash cmd).
Proof. rd hmget_hash. Qed.
Lemma rd_hgetall_hash now cmd : reads now (hgetall_hash cmd).
Proof. rd hgetall_hash. Qed.
Lemma rd_hkeys_hash now cmd : reads now (hkeys_hash cmd).
Proof. rd hkeys_hash. Qed.
Lemma rd_hvals_hash now cmd : reads now (hvals_hash cmd).
Proof. rd hvals_hash. Qed.
Lemma rd_hlen_hash now cmd : reads now (hlen_hash cmd).
Proof. rd hlen_hash. Qed.
Lemma rd_hexists_hash now cmd : reads now (hexists_hash cmd).
Proof. rd hexists_hash. Qed.
Lemma rd_hstrlen_hash now cmd : reads now (hstrlen_hash cmd).
Proof. rd hstrlen_hash. Qed.
Lemma rd_hrandfield_hash now cmd : reads now (hrandfield_hash cmd).
Proof. rd hrandfield_hash. Qed.
Lemma rd_lindex_list now cmd : reads now (lindex_list cmd).
Proof. rd lindex_list. Qed.
Lemma rd_llen_list now cmd : reads now (llen_list cmd).
Proof. rd llen_list. Qed.
Lemma rd_lrange_list now cmd : reads now (lrange_list cmd).
Proof. rd lrange_list. Qed.
Lemma rd_lpos_list now cmd : reads now (lpos_list cmd).
Proof. rd lpos_list. Qed.
Lemma rd_scard_set now cmd : reads now (scard_set cmd).
Proof. rd scard_set. Qed.
Lemma rd_sismember_set now cmd : reads now (sismember_set cmd).
Proof. rd sismember_set. Qed.
Lemma rd_smembers_set now cmd : reads now (smembers_set cmd).
Proof. rd smembers_set. Qed.
Lemma rd_srandmember_set now cmd : reads now (srandmember_set cmd).
Proof. rd srandmember_set. Qed.
Lemma rd_sinter_set now cmd : reads now (sinter_set cmd).
Proof. rd sinter_set. Qed.
Lemma rd_sunion_set now cmd : reads now (sunion_set cmd).
Proof. rd sunion_set. Qed.
Lemma rd_sdiff_set now cmd : reads now (sdiff_set cmd).
Proof. rd sdiff_set. Qed.

Lemma exec_reads now n args : to_lower (str n) ∈ map B read_names -> reads now (exec_in_db (n :: args)).
Proof.
  intros H. cbn [read_names map] in H.
  repeat (apply elem_of_cons in H as [H|H]; [erewrite (exec_named n args _ _ H) by reflexivity|]).
  - apply rd_get_string.
  - apply rd_getrange_string.
  - apply rd_strlen_string.
  - apply rd_mget_string.
  - apply rd_exists_key.
  - apply rd_type_key.
  - apply rd_ttl_key.
  - apply rd_keys_key.
  - apply rd_ping_keys.
  - apply rd_hget_hash.
  - apply rd_hmget_hash.
  - apply rd_hgetall_hash.
  - apply rd_hkeys_hash.
  - apply rd_hvals_hash.
  - apply rd_hlen_hash.
  - apply rd_hexists_hash.
  - apply rd_hstrlen_hash.
  - apply rd_hrandfield_hash.
  - apply rd_lindex_list.
  - apply rd_llen_list.
  - apply rd_lrange_list.
  - apply rd_lpos_list.
  - apply rd_scard_set.
  - apply rd_sismember_set.
  - apply rd_smembers_set.
  - apply rd_srandmember_set.
  - apply rd_sinter_set.
  - apply rd_sunion_set.
  - apply rd_sdiff_set.
  - inversion H.
Qed.
End Cmds.

(** ** Deadlines only come from SET, SETEX, EXPIRE and RENAME *)
Section Deadlines.
Context {P : Setup}.
Definition fewer (d d' : db) : Prop := forall k t, exps d' !! k = Some t -> exps d !! k = Some t.
Definition no_new_deadline {A} (p : prog A) : Prop := pres (fun _ => True) fewer p.
Lemma fewer_refl d : fewer d d. Proof. intros ??; auto. Qed.
Lemma fewer_trans a b c : fewer a b -> fewer b c -> fewer a c. Proof. intros H1 H2 k t H. auto. Qed.
Lemma fewer_put k v d : fewer d (put k v d). Proof. intros ??; auto. Qed.
Lemma fewer_mut k v d : fewer d (mut k v d). Proof. intros ??; auto. Qed.
Lemma fewer_edel k d : fewer d (edel k d).
Proof. intros k' t. unfold edel. cbn. rewrite lookup_delete_Some. intuition. Qed.
Lemma fewer_purge k d : fewer d (purge k d).
Proof. intros k' t H. apply (fewer_edel k (ddel k d)) in H. auto. Qed.
End Deadlines.
#[export] Hint Resolve fewer_refl fewer_trans fewer_put fewer_mut fewer_edel fewer_purge : fewer.
Ltac dl_step :=
  match goal with
  | |- no_new_deadline _ => unfold no_new_deadline
  | |- pres _ _ (Ret _) => apply pres_ret; eauto with fewer
  | |- pres _ _ Crash => apply pres_crash
  | |- pres _ _ Hang => apply pres_hang
  | |- pres _ _ (Range _ _) => apply pres_range; intros ?
  | |- pres _ _ (DSeg _ _) => apply pres_dseg; intros ?
  | |- pres _ _ (CntLoad _) => apply pres_cntload; intros ?
  | |- pres _ _ (with_lock _ _ _) => apply pres_with_lock
  | |- pres _ _ (with_mlock _ _ _) => apply pres_with_mlock
  | |- pres _ _ (let '(_, _) := ?x in _) => destruct x
  | |- pres _ _ (match ?x with _ => _ end) => destruct x
  | |- pres _ _ (pbind (dict_del _) (fun _ => pbind (delete_expire _) _)) =>
      refine (pres_delpair _ _ _ _ (fun a b => _) _ _); [eauto with fewer|intros; eauto with fewer|intros ? ?]
  | |- pres _ _ (dict_set _ _) => apply pres_dict_set; intros; apply fewer_put
  | |- pres _ _ (obj_put _ _) => apply pres_obj_put; intros; apply fewer_mut
  | |- pres _ _ (delete_expire _) => apply pres_delete_expire; intros; apply fewer_edel
  | |- pres _ _ (dict_get _) => apply pres_dict_get; intros; apply fewer_refl
  | |- pres _ _ (exp_get _) => apply pres_exp_get; intros; apply fewer_refl
  | |- pres _ _ now_unix => apply pres_now_unix; intros; apply fewer_refl
  | |- pres _ _ (check_expire _) => apply pres_check_expire; intros; apply fewer_refl
  | H : context [pres] |- pres _ _ _ => eapply H
  | |- pres _ _ (pbind _ _) => eapply pres_bind; [apply fewer_trans| |intros ?]
  | |- forall _, _ => intros ?
  | |- pres _ _ _ => progress cbv zeta beta
  end.
Ltac dl_go := repeat dl_step.
Section DeadlineCmds.
Context {P : Setup}.
Lemma dl_purge_key k : no_new_deadline (delete_expired_key k).
Proof. unfold delete_expired_key. dl_go. Qed.
Lemma dl_del_loop ks n : no_new_deadline (del_loop ks n).
Proof. pose proof dl_purge_key as H0. unfold no_new_deadline in *. revert n. induction ks as [|k ks IH]; intros; cbn [del_loop]; dl_go. Qed.
Lemma dl_exists_loop ks n : no_new_deadline (exists_loop ks n).
Proof. pose proof dl_purge_key as H0. unfold no_new_deadline in *. revert n. induction ks as [|k ks IH]; intros; cbn [exists_loop]; dl_go. Qed.
Lemma dl_mget_loop ks n : no_new_deadline (mget_loop ks n).
Proof. pose proof dl_purge_key as H0. unfold no_new_deadline in *. revert n. induction ks as [|k ks IH]; intros; cbn [mget_loop]; dl_go. Qed.
Lemma dl_keys_loop p ks : no_new_deadline (keys_loop p ks).
Proof. pose proof dl_purge_key as H0. unfold no_new_deadline in *. induction ks as [|k ks IH]; intros; cbn [keys_loop]; dl_go. Qed.
Lemma dl_mset_loop ks : no_new_deadline (mset_loop ks).
Proof. pose proof dl_purge_key as H0. unfold no_new_deadline in *. induction ks as [|k ks IH]; intros; cbn [mset_loop]; dl_go. Qed.
Lemma dl_live_keys ks acc : no_new_deadline (live_keys ks acc).
Proof. pose proof dl_purge_key as H0. unfold no_new_deadline in *. revert acc. induction ks as [|k ks IH]; intros; cbn [live_keys]; dl_go. Qed.
Lemma dl_read_sets m ks acc : no_new_deadline (read_sets m ks acc).
Proof. pose proof dl_purge_key as H0. unfold no_new_deadline in *. revert acc. induction ks as [|k ks IH]; intros; cbn [read_sets]; dl_go. Qed.
Lemma dl_keys_fill n i c : no_new_deadline (keys_fill n i c).
Proof. unfold no_new_deadline. revert i c. induction n; intros; cbn [keys_fill]; dl_go. Qed.
Lemma dl_draw_many n l : no_new_deadline (draw_many n l).
Proof. unfold no_new_deadline. induction n; cbn [draw_many]; dl_go. Qed.
Lemma dl_random_keys sz l c : no_new_deadline (random_keys sz l c).
Proof. pose proof dl_draw_many as H0. unfold no_new_deadline in *. unfold random_keys. dl_go. Qed.
Lemma dl_pop_many n x : no_new_deadline (pop_many n x).
Proof. unfold no_new_deadline. revert x. induction n; cbn [pop_many]; intros; unfold set_pop; dl_go. Qed.

Ltac dl_unf :=
  unfold hash_read, set_read, list_read, list_update, drop_if_empty, sdrop_if_empty, set_pop, counter_body,
    expire_run, hrandfield_run, spop_run, srandmember_run, pop_run, hset_common, pop_list, push_list, pushx_list,
    setop_set, setopstore_set, dict_keys in *.
Ltac dl_cmd := repeat first [dl_step | apply dl_purge_key | apply dl_del_loop | apply dl_exists_loop
  | apply dl_mget_loop | apply dl_keys_loop | apply dl_mset_loop | apply dl_live_keys | apply dl_read_sets
  | apply dl_keys_fill | apply dl_random_keys | apply dl_pop_many | progress dl_unf].
Tactic Notation "dlc" reference(f) := intros args; unfold f; dl_cmd.

Lemma dl_ping_keys : forall cmd, no_new_deadline (ping_keys cmd).
Proof. dlc ping_keys. Qed.
Lemma dl_del_key : forall cmd, no_new_deadline (del_key cmd).
Proof. dlc del_key. Qed.
Lemma dl_exists_key : forall cmd, no_new_deadline (exists_key cmd).
Proof. dlc exists_key. Qed.
Lemma dl_keys_key : forall cmd, no_new_deadline (keys_key cmd).
Proof. dlc keys_key. Qed.
Lemma dl_persist_key : forall cmd, no_new_deadline (persist_key cmd).
Proof. dlc persist_key. Qed.
Lemma dl_ttl_key : forall cmd, no_new_deadline (ttl_key cmd).
Proof. dlc ttl_key. Qed.
Lemma dl_type_key : forall cmd, no_new_deadline (type_key cmd).
Proof. dlc type_key. Qed.
Lemma dl_get_string : forall cmd, no_new_deadline (get_string cmd).
Proof. dlc get_string. Qed.
Lemma dl_getrange_string : forall cmd, no_new_deadline (getrange_string cmd).
Proof. dlc getrange_string. Qed.
Lemma dl_setrange_string : forall cmd, no_new_deadline (setrange_string cmd).
Proof. dlc setrange_string. Qed.
Lemma dl_mget_string : forall cmd, no_new_deadline (mget_string cmd).
Proof. dlc mget_string. Qed.
Lemma dl_mset_string : forall cmd, no_new_deadline (mset_string cmd).
Proof. dlc mset_string. Qed.
Lemma dl_setnx_string : forall cmd, no_new_deadline (setnx_string cmd).
Proof. dlc setnx_string. Qed.
Lemma dl_strlen_string : forall cmd, no_new_deadline (strlen_string cmd).
Proof. dlc strlen_string. Qed.
Lemma dl_incr_string : forall cmd, no_new_deadline (incr_string cmd).
Proof. dlc incr_string. Qed.
Lemma dl_incrby_string : forall cmd, no_new_deadline (incrby_string cmd).
Proof. dlc incrby_string. Qed.
Lemma dl_decr_string : forall cmd, no_new_deadline (decr_string cmd).
Proof. dlc decr_string. Qed.
Lemma dl_decrby_string : forall cmd, no_new_deadline (decrby_string cmd).
Proof. dlc decrby_string. Qed.
Lemma dl_incrbyfloat_string : forall cmd, no_new_deadline (incrbyfloat_string cmd).
Proof. dlc incrbyfloat_string. Qed.
Lemma dl_append_string : forall cmd, no_new_deadline (append_string cmd).
Proof. dlc append_string. Qed.
Lemma dl_hdel_hash : forall cmd, no_new_deadline (hdel_hash cmd).
Proof. dlc hdel_hash. Qed.
Lemma dl_hexists_hash : forall cmd, no_new_deadline (hexists_hash cmd).
Proof. dlc hexists_hash. Qed.
Lemma dl_hget_hash : forall cmd, no_new_deadline (hget_hash cmd).
Proof. dlc hget_hash. Qed.
Lemma dl_hgetall_hash : forall cmd, no_new_deadline (hgetall_hash cmd).
Proof. dlc hgetall_hash. Qed.
Lemma dl_hincrby_hash : forall cmd, no_new_deadline (hincrby_hash cmd).
Proof. dlc hincrby_hash. Qed.
Lemma dl_hincrbyfloat_hash : forall cmd, no_new_deadline (hincrbyfloat_hash cmd).
Proof. dlc hincrbyfloat_hash. Qed.
Lemma dl_hkeys_hash : forall cmd, no_new_deadline (hkeys_hash cmd).
Proof. dlc hkeys_hash. Qed.
Lemma dl_hlen_hash : forall cmd, no_new_deadline (hlen_hash cmd).
Proof. dlc hlen_hash. Qed.
Lemma dl_hmget_hash : forall cmd, no_new_deadline (hmget_hash cmd).
Proof. dlc hmget_hash. Qed.
Lemma dl_hmset_hash : forall cmd, no_new_deadline (hmset_hash cmd).
Proof. dlc hmset_hash. Qed.
Lemma dl_hset_hash : forall cmd, no_new_deadline (hset_hash cmd).
Proof. dlc hset_hash. Qed.
Lemma dl_hsetnx_hash : forall cmd, no_new_deadline (hsetnx_hash cmd).
Proof. dlc hsetnx_hash. Qed.
Lemma dl_hvals_hash : forall cmd, no_new_deadline (hvals_hash cmd).
Proof. dlc hvals_hash. Qed.
Lemma dl_hstrlen_hash : forall cmd, no_new_deadline (hstrlen_hash cmd).
Proof. dlc hstrlen_hash. Qed.
Lemma dl_hrandfield_hash : forall cmd, no_new_deadline (hrandfield_hash cmd).
Proof. dlc hrandfield_hash. Qed.
Lemma dl_lindex_list : forall cmd, no_new_deadline (lindex_list cmd).
Proof. dlc lindex_list. Qed.
Lemma dl_linsert_list : forall cmd, no_new_deadline (linsert_list cmd).
Proof. dlc linsert_list. Qed.
Lemma dl_llen_list : forall cmd, no_new_deadline (llen_list cmd).
Proof. dlc llen_list. Qed.
Lemma dl_lmove_list : forall cmd, no_new_deadline (lmove_list cmd).
Proof. dlc lmove_list. Qed.
Lemma dl_lpop_list : forall cmd, no_new_deadline (lpop_list cmd).
Proof. dlc lpop_list. Qed.
Lemma dl_lpos_list : forall cmd, no_new_deadline (lpos_list cmd).
Proof. dlc lpos_list. Qed.
Lemma dl_lpush_list : forall cmd, no_new_deadline (lpush_list cmd).
Proof. dlc lpush_list. Qed.
Lemma dl_lpushx_list : forall cmd, no_new_deadline (lpushx_list cmd).
Proof. dlc lpushx_list. Qed.
Lemma dl_lrange_list : forall cmd, no_new_deadline (lrange_list cmd).
Proof. dlc lrange_list. Qed.
Lemma dl_lrem_list : forall cmd, no_new_deadline (lrem_list cmd).
Proof. dlc lrem_list. Qed.
Lemma dl_lset_list : forall cmd, no_new_deadline (lset_list cmd).
Proof. dlc lset_list. Qed.
Lemma dl_ltrim_list : forall cmd, no_new_deadline (ltrim_list cmd).
Proof. dlc ltrim_list. Qed.
Lemma dl_rpop_list : forall cmd, no_new_deadline (rpop_list cmd).
Proof. dlc rpop_list. Qed.
Lemma dl_rpush_list : forall cmd, no_new_deadline (rpush_list cmd).
Proof. dlc rpush_list. Qed.
Lemma dl_rpushx_list : forall cmd, no_new_deadline (rpushx_list cmd).
Proof. dlc rpushx_list. Qed.
Lemma dl_sadd_set : forall cmd, no_new_deadline (sadd_set cmd).
Proof. dlc sadd_set. Qed.
Lemma dl_scard_set : forall cmd, no_new_deadline (scard_set cmd).
Proof. dlc scard_set. Qed.
Lemma dl_sdiff_set : forall cmd, no_new_deadline (sdiff_set cmd).
Proof. dlc sdiff_set. Qed.
Lemma dl_sdiffstore_set : forall cmd, no_new_deadline (sdiffstore_set cmd).
Proof. dlc sdiffstore_set. Qed.
Lemma dl_sinter_set : forall cmd, no_new_deadline (sinter_set cmd).
Proof. dlc sinter_set. Qed.
Lemma dl_sinterstore_set : forall cmd, no_new_deadline (sinterstore_set cmd).
Proof. dlc sinterstore_set. Qed.
Lemma dl_sismember_set : forall cmd, no_new_deadline (sismember_set cmd).
Proof. dlc sismember_set. Qed.
Lemma dl_smembers_set : forall cmd, no_new_deadline (smembers_set cmd).
Proof. dlc smembers_set. Qed.
Lemma dl_smove_set : forall cmd, no_new_deadline (smove_set cmd).
Proof. dlc smove_set. Qed.
Lemma dl_spop_set : forall cmd, no_new_deadline (spop_set cmd).
Proof. dlc spop_set. Qed.
Lemma dl_srandmember_set : forall cmd, no_new_deadline (srandmember_set cmd).
Proof. dlc srandmember_set. Qed.
Lemma dl_srem_set : forall cmd, no_new_deadline (srem_set cmd).
Proof. dlc srem_set. Qed.
Lemma dl_sunion_set : forall cmd, no_new_deadline (sunion_set cmd).
Proof. dlc sunion_set. Qed.
Lemma dl_sunionstore_set : forall cmd, no_new_deadline (sunionstore_set cmd).
Proof. dlc sunionstore_set. Qed.

(** The commands that may give a key a deadline. *)
Theorem exec_deadline cmd : forallb (fun s => negb (cmd_is s cmd)) deadline_names = true -> no_new_deadline (exec_in_db cmd).
Proof.
  apply (table_ind (fun cmd p => forallb (fun s => negb (cmd_is s cmd)) deadline_names = true -> no_new_deadline p)); clear cmd.
  - intros. dl_go.
  - intros. dl_go.
  - unfold cmd_table. repeat (apply List.Forall_cons; [cbn [fst snd]; intros n args Hn Hx|]); [..|apply List.Forall_nil].
    + apply dl_ping_keys.
    + apply dl_del_key.
    + apply dl_exists_key.
    + apply dl_keys_key.
    + exfalso. unfold cmd_is in Hx. rewrite Hn in Hx. vm_compute in Hx. discriminate.
    + apply dl_persist_key.
    + apply dl_ttl_key.
    + exfalso. unfold cmd_is in Hx. rewrite Hn in Hx. vm_compute in Hx. discriminate.
    + apply dl_type_key.
    + exfalso. unfold cmd_is in Hx. rewrite Hn in Hx. vm_compute in Hx. discriminate.
    + apply dl_get_string.
    + apply dl_getrange_string.
    + apply dl_setrange_string.
    + apply dl_mget_string.
    + apply dl_mset_string.
    + exfalso. unfold cmd_is in Hx. rewrite Hn in Hx. vm_compute in Hx. discriminate.
    + apply dl_setnx_string.
    + apply dl_strlen_string.
    + apply dl_incr_string.
    + apply dl_incrby_string.
    + apply dl_decr_string.
    + apply dl_decrby_string.
    + apply dl_incrbyfloat_string.
    + apply dl_append_string.
    + apply dl_hdel_hash.
    + apply dl_hexists_hash.
    + apply dl_hget_hash.
    + apply dl_hgetall_hash.
    + apply dl_hincrby_hash.
    + apply dl_hincrbyfloat_hash.
    + apply dl_hkeys_hash.
    + apply dl_hlen_hash.
    + apply dl_hmget_hash.
    + apply dl_hmset_hash.
    + apply dl_hset_hash.
    + apply dl_hsetnx_hash.
    + apply dl_hvals_hash.
    + apply dl_hstrlen_hash.
    + apply dl_hrandfield_hash.
    + apply dl_lindex_list.
    + apply dl_linsert_list.
    + apply dl_llen_list.
    + apply dl_lmove_list.
    + apply dl_lpop_list.
    + apply dl_lpos_list.
    + apply dl_lpush_list.
    + apply dl_lpushx_list.
    + apply dl_lrange_list.
    + apply dl_lrem_list.
    + apply dl_lset_list.
    + apply dl_ltrim_list.
    + apply dl_rpop_list.
    + apply dl_rpush_list.
    + apply dl_rpushx_list.
    + apply dl_sadd_set.
    + apply dl_scard_set.
    + apply dl_sdiff_set.
    + apply dl_sdiffstore_set.
    + apply dl_sinter_set.
    + apply dl_sinterstore_set.
    + apply dl_sismember_set.
    + apply dl_smembers_set.
    + apply dl_smove_set.
    + apply dl_spop_set.
    + apply dl_srandmember_set.
    + apply dl_srem_set.
    + apply dl_sunion_set.
    + apply dl_sunionstore_set.
Qed.
End DeadlineCmds.
