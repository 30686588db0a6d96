(** Expired keys look like missing keys. *)
From Verif Require Export Generic.

Lemma same_outcome_refl now o : same_outcome now o o.
Proof. destruct o; cbn; auto. Qed.

Lemma expired_purge now d k : expired now (purge k d) k = false.
Proof. unfold expired, purge, edel. cbn. rewrite lookup_delete. reflexivity. Qed.
Lemma view_purge now d k t k' : expired now d k = true -> now <= t -> view t (purge k d) k' = view t d k'.
Proof.
  intros He Ht. rewrite !view_raw, raw_purge. destruct (decide (k' = k)) as [->|]; [|auto].
  unfold expired in He. unfold raw. destruct (dict d !! k); [|auto]. destruct (exps d !! k) as [e|]; [|discriminate].
  cbn. destruct (Z.ltb_spec e now); [|discriminate]. destruct (Z.ltb_spec e t); [auto|lia].
Qed.

Lemma without_purge k d : without_key k d = purge k d.
Proof. reflexivity. Qed.

Section WithParams.
Context {P : Setup}.

Lemma lm_ret now d k r : expired now d k = true -> like_missing now d k (Ret r).
Proof.
  intros He out Hr. inversion Hr; subst. exists (Done r (purge k d)). split; [constructor|]. left.
  split; [auto|]. intros. rewrite (view_purge now); auto.
Qed.

(** The command does not look at the answer of [delete_expired_key]. *)
Lemma lm_blind now d k (p : prog rdata) : expired now d k = true ->
  like_missing now d k (pbind (delete_expired_key k) (fun _ => p)).
Proof.
  intros He out Hr.
  assert (H1 : runs (eq now) (purge k d) p out).
  { revert out Hr. apply wp_iff. rewrite wp_purge, He. apply wp_complete. }
  exists out. split; [|left; apply same_outcome_refl].
  clear Hr. revert out H1. 
  intros out H1.
  assert (H : wp (eq now) (purge k d) (pbind (delete_expired_key k) (fun _ => p)) (runs (eq now) (purge k d) (pbind (delete_expired_key k) (fun _ => p)))) by apply wp_complete.
  rewrite wp_purge, expired_purge in H. exact (wp_sound _ _ _ _ _ H1 H).
Qed.

(** The command answers [r] at once if the key was expired; on a missing key it answers the same, or an error. *)
Lemma lm_gone now d k (r : rdata) (p : prog rdata) : expired now d k = true ->
  (forall d0 : db, dict d0 !! k = None -> exps d0 !! k = None ->
     wp (eq now) d0 p (fun o => o = Done r d0 \/ exists m, o = Done (RErr m) d0)) ->
  like_missing now d k (pbind (delete_expired_key k) (fun e : bool => if e then Ret r else p)).
Proof.
  intros He Hp out Hr.
  assert (H1 : out = Done r (purge k d)).
  { revert out Hr. apply wp_iff. rewrite wp_purge, He. reflexivity. }
  subst out. set (q := pbind _ _) in *.
  assert (H : wp (eq now) (purge k d) q (fun o => o = Done r (purge k d) \/ exists m, o = Done (RErr m) (purge k d))).
  { unfold q. rewrite wp_purge, expired_purge. apply Hp; unfold purge, edel, ddel; cbn; apply lookup_delete. }
  pose proof (run_runs now (purge k d) q) as Hq. exists (run now (purge k d) q). split; [exact Hq|].
  apply (wp_sound _ _ _ _ _ Hq) in H as [->|[m ->]]; [left; apply same_outcome_refl|right].
  split; cbn; intros; apply (view_purge now); auto.
Qed.

Lemma lm_now now d k (f : Z -> prog rdata) : like_missing now d k (f now) -> like_missing now d k (pbind now_unix f).
Proof.
  intros H out Hr. cbn in Hr. inversion Hr; subst. destruct (H out) as (out' & Ho & Hs); [auto|].
  exists out'. split; [|exact Hs]. cbn. econstructor; [reflexivity|exact Ho].
Qed.

Definition lm_for (ex : command -> prog rdata) : Prop :=
  forall now d n k args, expired now d (str k) = true -> like_missing now d (str k) (ex (n :: k :: args)).
End WithParams.

Ltac lm_wp := 
  repeat match goal with
  | |- wp _ _ (pbind (dict_get _) _) _ => rewrite wp_dict_get; match goal with H : dict _ !! _ = None |- _ => rewrite H end; cbv iota beta
  | |- wp _ _ (pbind (exp_get _) _) _ => rewrite wp_exp_get; match goal with H : exps _ !! _ = None |- _ => rewrite H end; cbv iota beta
  | |- wp _ _ (pbind (set_expire _ _) _) _ => rewrite wp_set_expire; match goal with H : dict _ !! _ = None |- _ => rewrite H end; cbv iota beta
  | |- wp _ _ (Ret _) _ => cbn [wp]; first [left; reflexivity | right; eexists; reflexivity]
  | |- wp _ _ (match ?x with _ => _ end) _ => destruct x
  | |- wp _ _ (with_lock _ _ _) _ => rewrite wp_lock_bare
  end.
Ltac lm_go He :=
  match goal with
  | |- like_missing _ _ _ (Ret _) => apply lm_ret; exact He
  | |- like_missing _ _ _ (match ?x with [] => _ | _ :: _ => _ end) => is_var x; destruct x; lm_go He
  | |- like_missing _ _ _ (if ?x then _ else _) => destruct x; lm_go He
  | |- like_missing _ _ _ (pbind (delete_expired_key _) (fun _ => ?p)) => apply lm_blind; exact He
  | |- like_missing _ _ _ (pbind (delete_expired_key _) _) =>
      apply lm_gone; [exact He|]; intros d0 HD HE; cbv zeta; lm_wp
  end.
Section Cmds.
Context {P : Setup}.
Tactic Notation "lm" reference(f) :=
  intros now d n k args He; unfold f;
  unfold hset_common, pop_list, push_list, pushx_list, pop_run, hash_read, set_read, list_read, list_update, 
    counter_body, hrandfield_run, spop_run, srandmember_run; cbv zeta;
  lm_go He.
Lemma lm_expire : lm_for expire_key.
Proof.
  intros now d n k args He. unfold expire_key. destruct args as [|a [|b [|c r]]]; try (lm_go He; fail).
  all: unfold expire_run; destruct (atoi (str a)); [|lm_go He]; apply lm_now; cbv zeta.
  all: apply lm_gone; [exact He|]; intros d0 HD HE; lm_wp.
Qed.
Lemma lm_ttl : lm_for ttl_key.
Proof. lm ttl_key. Qed.
Lemma lm_type : lm_for type_key.
Proof. lm type_key. Qed.
Lemma lm_set : lm_for set_string.
Proof. lm set_string. Qed.
Lemma lm_get : lm_for get_string.
Proof. lm get_string. Qed.
Lemma lm_getrange : lm_for getrange_string.
Proof. lm getrange_string. Qed.
Lemma lm_setrange : lm_for setrange_string.
Proof. lm setrange_string. Qed.
Lemma lm_setex : lm_for setex_string.
Proof. lm setex_string. Qed.
Lemma lm_setnx : lm_for setnx_string.
Proof. lm setnx_string. Qed.
Lemma lm_strlen : lm_for strlen_string.
Proof. lm strlen_string. Qed.
Lemma lm_incr : lm_for incr_string.
Proof. lm incr_string. Qed.
Lemma lm_incrby : lm_for incrby_string.
Proof. lm incrby_string. Qed.
Lemma lm_decr : lm_for decr_string.
Proof. lm decr_string. Qed.
Lemma lm_decrby : lm_for decrby_string.
Proof. lm decrby_string. Qed.
Lemma lm_incrbyfloat : lm_for incrbyfloat_string.
Proof. lm incrbyfloat_string. Qed.
Lemma lm_append : lm_for append_string.
Proof. lm append_string. Qed.
Lemma lm_hdel : lm_for hdel_hash.
Proof. lm hdel_hash. Qed.
Lemma lm_hexists : lm_for hexists_hash.
Proof. lm hexists_hash. Qed.
Lemma lm_hget : lm_for hget_hash.
Proof. lm hget_hash. Qed.
Lemma lm_hgetall : lm_for hgetall_hash.
Proof. lm hgetall_hash. Qed.
Lemma lm_hincrby : lm_for hincrby_hash.
Proof. lm hincrby_hash. Qed.
Lemma lm_hincrbyfloat : lm_for hincrbyfloat_hash.
Proof. lm hincrbyfloat_hash. Qed.
Lemma lm_hkeys : lm_for hkeys_hash.
Proof. lm hkeys_hash. Qed.
Lemma lm_hlen : lm_for hlen_hash.
Proof. lm hlen_hash. Qed.
Lemma lm_hmget : lm_for hmget_hash.
Proof. lm hmget_hash. Qed.
Lemma lm_hmset : lm_for hmset_hash.
Proof. lm hmset_hash. Qed.
Lemma lm_hset : lm_for hset_hash.
Proof. lm hset_hash. Qed.
Lemma lm_hsetnx : lm_for hsetnx_hash.
Proof. lm hsetnx_hash. Qed.
Lemma lm_hvals : lm_for hvals_hash.
Proof. lm hvals_hash. Qed.
Lemma lm_hstrlen : lm_for hstrlen_hash.
Proof. lm hstrlen_hash. Qed.
Lemma lm_hrandfield : lm_for hrandfield_hash.
Proof. lm hrandfield_hash. Qed.
Lemma lm_lindex : lm_for lindex_list.
Proof. lm lindex_list. Qed.
Lemma lm_linsert : lm_for linsert_list.
Proof. lm linsert_list. Qed.
Lemma lm_llen : lm_for llen_list.
Proof. lm llen_list. Qed.
Lemma lm_lpop : lm_for lpop_list.
Proof. lm lpop_list. Qed.
Lemma lm_lpos : lm_for lpos_list.
Proof.
  intros now d n k args He. unfold lpos_list. destruct args as [|el args]; [lm_go He|]. destruct (Nat.even _); [lm_go He|].
  cbv zeta. apply lm_gone; [exact He|]. intros d0 HD HE.
  destruct (lpos_opts args (mkLpos None None None)) as [o|e] eqn:E; [unfold list_read; lm_wp|].
  apply lpos_opts_err in E as [m ->]. lm_wp.
Qed.
Lemma lm_lpush : lm_for lpush_list.
Proof. lm lpush_list. Qed.
Lemma lm_lpushx : lm_for lpushx_list.
Proof. lm lpushx_list. Qed.
Lemma lm_lrange : lm_for lrange_list.
Proof. lm lrange_list. Qed.
Lemma lm_lrem : lm_for lrem_list.
Proof. lm lrem_list. Qed.
Lemma lm_lset : lm_for lset_list.
Proof. lm lset_list. Qed.
Lemma lm_ltrim : lm_for ltrim_list.
Proof. lm ltrim_list. Qed.
Lemma lm_rpop : lm_for rpop_list.
Proof. lm rpop_list. Qed.
Lemma lm_rpush : lm_for rpush_list.
Proof. lm rpush_list. Qed.
Lemma lm_rpushx : lm_for rpushx_list.
Proof. lm rpushx_list. Qed.
Lemma lm_sadd : lm_for sadd_set.
Proof. lm sadd_set. Qed.
Lemma lm_scard : lm_for scard_set.
Proof. lm scard_set. Qed.
Lemma lm_sismember : lm_for sismember_set.
Proof. lm sismember_set. Qed.
Lemma lm_smembers : lm_for smembers_set.
Proof. lm smembers_set. Qed.
Lemma lm_spop : lm_for spop_set.
Proof. lm spop_set. Qed.
Lemma lm_srandmember : lm_for srandmember_set.
Proof. lm srandmember_set. Qed.
Lemma lm_srem : lm_for srem_set.
Proof. lm srem_set. Qed.

Lemma exec_expired now d s n k args : In s one_key_commands -> named n s -> expired now d (str k) = true ->
  like_missing now d (str k) (exec_in_db (n :: k :: args)).
Proof.
  intros HI Hn He. unfold one_key_commands in HI.
  repeat (destruct HI as [HI|HI]; [subst s; erewrite (exec_named n (k :: args) _ _ Hn) by reflexivity|]).
  - apply lm_expire; auto.
  - apply lm_ttl; auto.
  - apply lm_type; auto.
  - apply lm_set; auto.
  - apply lm_get; auto.
  - apply lm_getrange; auto.
  - apply lm_setrange; auto.
  - apply lm_setex; auto.
  - apply lm_setnx; auto.
  - apply lm_strlen; auto.
  - apply lm_incr; auto.
  - apply lm_incrby; auto.
  - apply lm_decr; auto.
  - apply lm_decrby; auto.
  - apply lm_incrbyfloat; auto.
  - apply lm_append; auto.
  - apply lm_hdel; auto.
  - apply lm_hexists; auto.
  - apply lm_hget; auto.
  - apply lm_hgetall; auto.
  - apply lm_hincrby; auto.
  - apply lm_hincrbyfloat; auto.
  - apply lm_hkeys; auto.
  - apply lm_hlen; auto.
  - apply lm_hmget; auto.
  - apply lm_hmset; auto.
  - apply lm_hset; auto.
  - apply lm_hsetnx; auto.
  - apply lm_hvals; auto.
  - apply lm_hstrlen; auto.
  - apply lm_hrandfield; auto.
  - apply lm_lindex; auto.
  - apply lm_linsert; auto.
  - apply lm_llen; auto.
  - apply lm_lpop; auto.
  - apply lm_lpos; auto.
  - apply lm_lpush; auto.
  - apply lm_lpushx; auto.
  - apply lm_lrange; auto.
  - apply lm_lrem; auto.
  - apply lm_lset; auto.
  - apply lm_ltrim; auto.
  - apply lm_rpop; auto.
  - apply lm_rpush; auto.
  - apply lm_rpushx; auto.
  - apply lm_sadd; auto.
  - apply lm_scard; auto.
  - apply lm_sismember; auto.
  - apply lm_smembers; auto.
  - apply lm_spop; auto.
  - apply lm_srandmember; auto.
  - apply lm_srem; auto.
  - destruct HI.
Qed.
End Cmds.
