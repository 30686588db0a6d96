(** Relations between the databases before and after a command, proved compositionally. *)
From Verif Require Export WfCmds.

Section WithParams.
Context {P : Setup}.

(** [pres T R p]: from a well-formed database, if [p] returns, the database is well formed and related
    to the initial one by [R]. *)
Definition pres {A} (T : Z -> Prop) (R : db -> db -> Prop) (p : prog A) : Prop :=
  forall d, Inv d -> wp T d p (fun out => match out with Done _ d' => Inv d' /\ R d d' | _ => True end).

Context (T : Z -> Prop) (R : db -> db -> Prop).
Context (Rrefl : forall d, R d d) (Rtrans : forall a b c, R a b -> R b c -> R a c).

Lemma pres_ret {A} (a : A) : pres T R (Ret a).
Proof. intros d HI. cbn. auto. Qed.
Lemma pres_crash {A} : pres T R (@Crash A).
Proof. intros d HI. cbn. auto. Qed.
Lemma pres_hang {A} : pres T R (@Hang A).
Proof. intros d HI. cbn. auto. Qed.
Lemma pres_bind {A C} (p : prog A) (f : A -> prog C) :
  pres T R p -> (forall a, pres T R (f a)) -> pres T R (pbind p f).
Proof.
  intros Hp Hf d HI. rewrite wp_bind. eapply wp_mono; [|apply Hp; auto].
  intros [a d1| |]; auto. intros [HI1 HR]. eapply wp_mono; [|apply Hf; auto].
  intros [c d2| |]; auto. intros [HI2 HR2]. eauto.
Qed.
Lemma pres_now {A} (k : Z -> prog A) : (forall t, pres T R (k t)) -> pres T R (Now k).
Proof. intros H d HI. cbn. intros t _. apply H; auto. Qed.
Lemma pres_range {A} l (k : list bytes -> prog A) : (forall l', pres T R (k l')) -> pres T R (Range l k).
Proof. intros H d HI. cbn. intros t _. apply H; auto. Qed.
Lemma pres_dseg {A} i (k : list bytes -> prog A) : (forall l', pres T R (k l')) -> pres T R (DSeg i k).
Proof. intros H d HI. cbn. intros t _. apply H; auto. Qed.
Lemma pres_cntload {A} (k : Z -> prog A) : (forall l', pres T R (k l')) -> pres T R (CntLoad k).
Proof. intros H d HI. cbn. apply H; auto. Qed.
Lemma pres_dict_get k : pres T R (dict_get k).
Proof. intros d HI. cbn. auto. Qed.
Lemma pres_exp_get k : pres T R (exp_get k).
Proof. intros d HI. cbn. auto. Qed.
Lemma pres_now_unix : pres T R now_unix.
Proof. intros d HI. cbn. auto. Qed.
Lemma pres_with_lock {A} m k (body : prog A) : pres T R body -> pres T R (with_lock m k body).
Proof. intros H d HI. rewrite wp_lock_bare. apply H; auto. Qed.
Lemma pres_with_mlock {A} m k (body : prog A) : pres T R body -> pres T R (with_mlock m k body).
Proof. intros H d HI. rewrite wp_mlock_bare. apply H; auto. Qed.
Lemma pres_check_expire k : pres T R (check_expire k).
Proof. intros d HI. unfold check_expire. cbn. destruct (exps d !! k); cbn; auto. Qed.

(** Writes. *)
Lemma pres_dict_set k v : (forall d, R d (put k v d)) -> pres T R (dict_set k v).
Proof. intros H d HI. rewrite wp_bare, wp_dict_set. cbn. auto with inv. Qed.
Lemma pres_obj_put k v : (forall d, R d (mut k v d)) -> pres T R (obj_put k v).
Proof. intros H d HI. rewrite wp_bare, wp_obj_put. cbn. auto with inv. Qed.
Lemma pres_delete_expire k : (forall d, R d (edel k d)) -> pres T R (delete_expire k).
Proof. intros H d HI. rewrite wp_bare, wp_delete_expire. cbn. auto with inv. Qed.
Lemma pres_set_expire k t : (forall d, R d (eset k t d)) -> pres T R (set_expire k t).
Proof.
  intros H d HI. rewrite wp_bare, wp_set_expire. destruct (dict d !! k) eqn:E; cbn; auto.
  split; auto. apply inv_eset; eauto.
Qed.
Lemma pres_delpair {A} k (f : bool -> bool -> prog A) : (forall d, R d (purge k d)) ->
  (forall a b, pres T R (f a b)) ->
  pres T R (pbind (dict_del k) (fun a => pbind (delete_expire k) (f a))).
Proof.
  intros H Hf d HI. rewrite wp_dict_del, wp_delete_expire. eapply wp_mono; [|apply Hf; apply (inv_purge k d HI)].
  intros [a d1| |]; auto. intros [HI1 H1]. split; auto. eapply Rtrans; [apply H|]. exact H1.
Qed.
End WithParams.

(** ** Invariant preservation *)
Section InvSec.
Context {P : Setup}.
Definition keeps_inv {A} (p : prog A) : Prop := pres (fun _ => True) (fun _ _ => True) p.
End InvSec.

Ltac inv_atom :=
  first [ apply pres_dict_set; intros; exact I
        | apply pres_obj_put; intros; exact I
        | apply pres_delete_expire; intros; exact I
        | apply pres_set_expire; intros; exact I
        | apply pres_dict_get; intros; exact I
        | apply pres_exp_get; intros; exact I
        | apply pres_now_unix; intros; exact I
        | apply pres_check_expire; intros; exact I ].
Ltac inv_step :=
  match goal with
  | |- keeps_inv _ => unfold keeps_inv
  | |- pres _ _ (Ret _) => apply pres_ret; auto
  | |- pres _ _ Crash => apply pres_crash; auto
  | |- pres _ _ Hang => apply pres_hang; auto
  | |- pres _ _ (Range _ _) => apply pres_range; intros ?
  | |- pres _ _ (DSeg _ _) => apply pres_dseg; intros ?
  | |- pres _ _ (CntLoad _) => apply pres_cntload; intros ?
  | |- pres _ _ (with_lock _ _ _) => apply pres_with_lock
  | |- pres _ _ (with_mlock _ _ _) => apply pres_with_mlock
  | |- pres _ _ (let '(_, _) := ?x in _) => destruct x
  | |- pres _ _ (match ?x with _ => _ end) => destruct x
  | |- pres _ _ (pbind (dict_del _) (fun _ => pbind (delete_expire _) _)) =>
      refine (pres_delpair _ _ _ _ (fun a b => _) _ _); [auto|intros; exact I|intros ? ?]
  | |- pres _ _ _ => inv_atom
  | H : context [pres] |- pres _ _ _ => eapply H
  | |- pres _ _ (pbind _ _) => eapply pres_bind; [auto| |intros ?]
  | |- forall _, _ => intros ?
  | |- pres _ _ _ => progress cbv zeta beta
  end.
Ltac inv_go := repeat inv_step.

Section InvCmds.
Context {P : Setup}.

Lemma inv_purge_key k : keeps_inv (delete_expired_key k).
Proof. unfold delete_expired_key. inv_go. Qed.
Lemma inv_del_loop ks n : keeps_inv (del_loop ks n).
Proof. pose proof inv_purge_key as H0. unfold keeps_inv in *. revert n. induction ks as [|k ks IH]; intros; cbn [del_loop]; inv_go. Qed.
Lemma inv_exists_loop ks n : keeps_inv (exists_loop ks n).
Proof. pose proof inv_purge_key as H0. unfold keeps_inv in *. revert n. induction ks as [|k ks IH]; intros; cbn [exists_loop]; inv_go. Qed.
Lemma inv_mget_loop ks n : keeps_inv (mget_loop ks n).
Proof. pose proof inv_purge_key as H0. unfold keeps_inv in *. revert n. induction ks as [|k ks IH]; intros; cbn [mget_loop]; inv_go. Qed.
Lemma inv_keys_loop p ks : keeps_inv (keys_loop p ks).
Proof. pose proof inv_purge_key as H0. unfold keeps_inv in *. induction ks as [|k ks IH]; intros; cbn [keys_loop]; inv_go. Qed.
Lemma inv_mset_loop ks : keeps_inv (mset_loop ks).
Proof. pose proof inv_purge_key as H0. unfold keeps_inv in *. induction ks as [|k ks IH]; intros; cbn [mset_loop]; inv_go. Qed.
Lemma inv_live_keys ks acc : keeps_inv (live_keys ks acc).
Proof. pose proof inv_purge_key as H0. unfold keeps_inv in *. revert acc. induction ks as [|k ks IH]; intros; cbn [live_keys]; inv_go. Qed.
Lemma inv_read_sets m ks acc : keeps_inv (read_sets m ks acc).
Proof. pose proof inv_purge_key as H0. unfold keeps_inv in *. revert acc. induction ks as [|k ks IH]; intros; cbn [read_sets]; inv_go. Qed.
Lemma inv_keys_fill n i c : keeps_inv (keys_fill n i c).
Proof. unfold keeps_inv. revert i c. induction n; intros; cbn [keys_fill]; inv_go. Qed.
Lemma inv_draw_many n l : keeps_inv (draw_many n l).
Proof. unfold keeps_inv. induction n; cbn [draw_many]; inv_go. Qed.
Lemma inv_random_keys sz l c : keeps_inv (random_keys sz l c).
Proof. pose proof inv_draw_many as H0. unfold keeps_inv in *. unfold random_keys. inv_go. Qed.
Lemma inv_pop_many n x : keeps_inv (pop_many n x).
Proof. unfold keeps_inv. revert x. induction n; cbn [pop_many]; intros; unfold set_pop; inv_go. Qed.

Ltac inv_unf :=
  unfold hash_read, set_read, list_read, list_update, drop_if_empty, sdrop_if_empty, set_pop, counter_body,
    expire_run, hrandfield_run, spop_run, srandmember_run, pop_run, hset_common, pop_list, push_list, pushx_list,
    setop_set, setopstore_set, dict_keys in *.
Ltac inv_cmd := repeat first [inv_step | apply inv_purge_key | apply inv_del_loop | apply inv_exists_loop
  | apply inv_mget_loop | apply inv_keys_loop | apply inv_mset_loop | apply inv_live_keys | apply inv_read_sets
  | apply inv_keys_fill | apply inv_random_keys | apply inv_pop_many | progress inv_unf].
Tactic Notation "invc" reference(f) := intros args; unfold f; inv_cmd.

Lemma inv_ping_keys : forall cmd, keeps_inv (ping_keys cmd).
Proof. invc ping_keys. Qed.
Lemma inv_del_key : forall cmd, keeps_inv (del_key cmd).
Proof. invc del_key. Qed.
Lemma inv_exists_key : forall cmd, keeps_inv (exists_key cmd).
Proof. invc exists_key. Qed.
Lemma inv_keys_key : forall cmd, keeps_inv (keys_key cmd).
Proof. invc keys_key. Qed.
Lemma inv_expire_key : forall cmd, keeps_inv (expire_key cmd).
Proof. invc expire_key. Qed.
Lemma inv_persist_key : forall cmd, keeps_inv (persist_key cmd).
Proof. invc persist_key. Qed.
Lemma inv_ttl_key : forall cmd, keeps_inv (ttl_key cmd).
Proof. invc ttl_key. Qed.
Lemma inv_rename_key : forall cmd, keeps_inv (rename_key cmd).
Proof. invc rename_key. Qed.
Lemma inv_type_key : forall cmd, keeps_inv (type_key cmd).
Proof. invc type_key. Qed.
Lemma inv_set_string : forall cmd, keeps_inv (set_string cmd).
Proof. invc set_string. Qed.
Lemma inv_get_string : forall cmd, keeps_inv (get_string cmd).
Proof. invc get_string. Qed.
Lemma inv_getrange_string : forall cmd, keeps_inv (getrange_string cmd).
Proof. invc getrange_string. Qed.
Lemma inv_setrange_string : forall cmd, keeps_inv (setrange_string cmd).
Proof. invc setrange_string. Qed.
Lemma inv_mget_string : forall cmd, keeps_inv (mget_string cmd).
Proof. invc mget_string. Qed.
Lemma inv_mset_string : forall cmd, keeps_inv (mset_string cmd).
Proof. invc mset_string. Qed.
Lemma inv_setex_string : forall cmd, keeps_inv (setex_string cmd).
Proof. invc setex_string. Qed.
Lemma inv_setnx_string : forall cmd, keeps_inv (setnx_string cmd).
Proof. invc setnx_string. Qed.
Lemma inv_strlen_string : forall cmd, keeps_inv (strlen_string cmd).
Proof. invc strlen_string. Qed.
Lemma inv_incr_string : forall cmd, keeps_inv (incr_string cmd).
Proof. invc incr_string. Qed.
Lemma inv_incrby_string : forall cmd, keeps_inv (incrby_string cmd).
Proof. invc incrby_string. Qed.
Lemma inv_decr_string : forall cmd, keeps_inv (decr_string cmd).
Proof. invc decr_string. Qed.
Lemma inv_decrby_string : forall cmd, keeps_inv (decrby_string cmd).
Proof. invc decrby_string. Qed.
Lemma inv_incrbyfloat_string : forall cmd, keeps_inv (incrbyfloat_string cmd).
Proof. invc incrbyfloat_string. Qed.
Lemma inv_append_string : forall cmd, keeps_inv (append_string cmd).
Proof. invc append_string. Qed.
Lemma inv_hdel_hash : forall cmd, keeps_inv (hdel_hash cmd).
Proof. invc hdel_hash. Qed.
Lemma inv_hexists_hash : forall cmd, keeps_inv (hexists_hash cmd).
Proof. invc hexists_hash. Qed.
Lemma inv_hget_hash : forall cmd, keeps_inv (hget_hash cmd).
Proof. invc hget_hash. Qed.
Lemma inv_hgetall_hash : forall cmd, keeps_inv (hgetall_hash cmd).
Proof. invc hgetall_hash. Qed.
Lemma inv_hincrby_hash : forall cmd, keeps_inv (hincrby_hash cmd).
Proof. invc hincrby_hash. Qed.
Lemma inv_hincrbyfloat_hash : forall cmd, keeps_inv (hincrbyfloat_hash cmd).
Proof. invc hincrbyfloat_hash. Qed.
Lemma inv_hkeys_hash : forall cmd, keeps_inv (hkeys_hash cmd).
Proof. invc hkeys_hash. Qed.
Lemma inv_hlen_hash : forall cmd, keeps_inv (hlen_hash cmd).
Proof. invc hlen_hash. Qed.
Lemma inv_hmget_hash : forall cmd, keeps_inv (hmget_hash cmd).
Proof. invc hmget_hash. Qed.
Lemma inv_hmset_hash : forall cmd, keeps_inv (hmset_hash cmd).
Proof. invc hmset_hash. Qed.
Lemma inv_hset_hash : forall cmd, keeps_inv (hset_hash cmd).
Proof. invc hset_hash. Qed.
Lemma inv_hsetnx_hash : forall cmd, keeps_inv (hsetnx_hash cmd).
Proof. invc hsetnx_hash. Qed.
Lemma inv_hvals_hash : forall cmd, keeps_inv (hvals_hash cmd).
Proof. invc hvals_hash. Qed.
Lemma inv_hstrlen_hash : forall cmd, keeps_inv (hstrlen_hash cmd).
Proof. invc hstrlen_hash. Qed.
Lemma inv_hrandfield_hash : forall cmd, keeps_inv (hrandfield_hash cmd).
Proof. invc hrandfield_hash. Qed.
Lemma inv_lindex_list : forall cmd, keeps_inv (lindex_list cmd).
Proof. invc lindex_list. Qed.
Lemma inv_linsert_list : forall cmd, keeps_inv (linsert_list cmd).
Proof. invc linsert_list. Qed.
Lemma inv_llen_list : forall cmd, keeps_inv (llen_list cmd).
Proof. invc llen_list. Qed.
Lemma inv_lmove_list : forall cmd, keeps_inv (lmove_list cmd).
Proof. invc lmove_list. Qed.
Lemma inv_lpop_list : forall cmd, keeps_inv (lpop_list cmd).
Proof. invc lpop_list. Qed.
Lemma inv_lpos_list : forall cmd, keeps_inv (lpos_list cmd).
Proof. invc lpos_list. Qed.
Lemma inv_lpush_list : forall cmd, keeps_inv (lpush_list cmd).
Proof. invc lpush_list. Qed.
Lemma inv_lpushx_list : forall cmd, keeps_inv (lpushx_list cmd).
Proof. invc lpushx_list. Qed.
Lemma inv_lrange_list : forall cmd, keeps_inv (lrange_list cmd).
Proof. invc lrange_list. Qed.
Lemma inv_lrem_list : forall cmd, keeps_inv (lrem_list cmd).
Proof. invc lrem_list. Qed.
Lemma inv_lset_list : forall cmd, keeps_inv (lset_list cmd).
Proof. invc lset_list. Qed.
Lemma inv_ltrim_list : forall cmd, keeps_inv (ltrim_list cmd).
Proof. invc ltrim_list. Qed.
Lemma inv_rpop_list : forall cmd, keeps_inv (rpop_list cmd).
Proof. invc rpop_list. Qed.
Lemma inv_rpush_list : forall cmd, keeps_inv (rpush_list cmd).
Proof. invc rpush_list. Qed.
Lemma inv_rpushx_list : forall cmd, keeps_inv (rpushx_list cmd).
Proof. invc rpushx_list. Qed.
Lemma inv_sadd_set : forall cmd, keeps_inv (sadd_set cmd).
Proof. invc sadd_set. Qed.
Lemma inv_scard_set : forall cmd, keeps_inv (scard_set cmd).
Proof. invc scard_set. Qed.
Lemma inv_sdiff_set : forall cmd, keeps_inv (sdiff_set cmd).
Proof. invc sdiff_set. Qed.
Lemma inv_sdiffstore_set : forall cmd, keeps_inv (sdiffstore_set cmd).
Proof. invc sdiffstore_set. Qed.
Lemma inv_sinter_set : forall cmd, keeps_inv (sinter_set cmd).
Proof. invc sinter_set. Qed.
Lemma inv_sinterstore_set : forall cmd, keeps_inv (sinterstore_set cmd).
Proof. invc sinterstore_set. Qed.
Lemma inv_sismember_set : forall cmd, keeps_inv (sismember_set cmd).
Proof. invc sismember_set. Qed.
Lemma inv_smembers_set : forall cmd, keeps_inv (smembers_set cmd).
Proof. invc smembers_set. Qed.
Lemma inv_smove_set : forall cmd, keeps_inv (smove_set cmd).
Proof. invc smove_set. Qed.
Lemma inv_spop_set : forall cmd, keeps_inv (spop_set cmd).
Proof. invc spop_set. Qed.
Lemma inv_srandmember_set : forall cmd, keeps_inv (srandmember_set cmd).
Proof. invc srandmember_set. Qed.
Lemma inv_srem_set : forall cmd, keeps_inv (srem_set cmd).
Proof. invc srem_set. Qed.
Lemma inv_sunion_set : forall cmd, keeps_inv (sunion_set cmd).
Proof. invc sunion_set. Qed.
Lemma inv_sunionstore_set : forall cmd, keeps_inv (sunionstore_set cmd).
Proof. invc sunionstore_set. Qed.

Theorem exec_inv cmd : keeps_inv (exec_in_db cmd).
Proof.
  apply (table_ind (fun _ p => keeps_inv p)); clear cmd.
  - inv_go.
  - intros. inv_go.
  - unfold cmd_table. repeat (apply List.Forall_cons; [cbn [fst snd]; intros n args _|]); [..|apply List.Forall_nil].
    + apply inv_ping_keys.
    + apply inv_del_key.
    + apply inv_exists_key.
    + apply inv_keys_key.
    + apply inv_expire_key.
    + apply inv_persist_key.
    + apply inv_ttl_key.
    + apply inv_rename_key.
    + apply inv_type_key.
    + apply inv_set_string.
    + apply inv_get_string.
    + apply inv_getrange_string.
    + apply inv_setrange_string.
    + apply inv_mget_string.
    + apply inv_mset_string.
    + apply inv_setex_string.
    + apply inv_setnx_string.
    + apply inv_strlen_string.
    + apply inv_incr_string.
    + apply inv_incrby_string.
    + apply inv_decr_string.
    + apply inv_decrby_string.
    + apply inv_incrbyfloat_string.
    + apply inv_append_string.
    + apply inv_hdel_hash.
    + apply inv_hexists_hash.
    + apply inv_hget_hash.
    + apply inv_hgetall_hash.
    + apply inv_hincrby_hash.
    + apply inv_hincrbyfloat_hash.
    + apply inv_hkeys_hash.
    + apply inv_hlen_hash.
    + apply inv_hmget_hash.
    + apply inv_hmset_hash.
    + apply inv_hset_hash.
    + apply inv_hsetnx_hash.
    + apply inv_hvals_hash.
    + apply inv_hstrlen_hash.
    + apply inv_hrandfield_hash.
    + apply inv_lindex_list.
    + apply inv_linsert_list.
    + apply inv_llen_list.
    + apply inv_lmove_list.
    + apply inv_lpop_list.
    + apply inv_lpos_list.
    + apply inv_lpush_list.
    + apply inv_lpushx_list.
    + apply inv_lrange_list.
    + apply inv_lrem_list.
    + apply inv_lset_list.
    + apply inv_ltrim_list.
    + apply inv_rpop_list.
    + apply inv_rpush_list.
    + apply inv_rpushx_list.
    + apply inv_sadd_set.
    + apply inv_scard_set.
    + apply inv_sdiff_set.
    + apply inv_sdiffstore_set.
    + apply inv_sinter_set.
    + apply inv_sinterstore_set.
    + apply inv_sismember_set.
    + apply inv_smembers_set.
    + apply inv_smove_set.
    + apply inv_spop_set.
    + apply inv_srandmember_set.
    + apply inv_srem_set.
    + apply inv_sunion_set.
    + apply inv_sunionstore_set.
Qed.
End InvCmds.
