(** The commands that cannot panic, and those that cannot loop, whatever the shared state shows them. *)
From Verif Require Export Table Conc GlobProofs.

(** No leaf is a panic, unless [c]; and none an endless loop, unless [h]. *)
Inductive calm {A} (c h : bool) : prog A -> Prop :=
| cm_Ret a : calm c h (Ret a)
| cm_Crash : c = true -> calm c h Crash
| cm_Hang : h = true -> calm c h Hang
| cm_Now k : (forall t, calm c h (k t)) -> calm c h (Now k)
| cm_Range l k : (forall x, Permutation x l -> calm c h (k x)) -> calm c h (Range l k)
| cm_DGet key k : (forall x, calm c h (k x)) -> calm c h (DGet key k)
| cm_DSet key v k : (forall x, calm c h (k x)) -> calm c h (DSet key v k)
| cm_DMut key v k : calm c h k -> calm c h (DMut key v k)
| cm_DDel key k : (forall x, calm c h (k x)) -> calm c h (DDel key k)
| cm_DSeg i k : (forall x, calm c h (k x)) -> calm c h (DSeg i k)
| cm_CntLoad k : (forall x, calm c h (k x)) -> calm c h (CntLoad k)
| cm_CntStore n k : calm c h k -> calm c h (CntStore n k)
| cm_EGet key k : (forall x, calm c h (k x)) -> calm c h (EGet key k)
| cm_ESet key t k : calm c h k -> calm c h (ESet key t k)
| cm_EDel key k : (forall x, calm c h (k x)) -> calm c h (EDel key k)
| cm_Acq pos m k : calm c h k -> calm c h (Acq pos m k)
| cm_Rel pos m k : calm c h k -> calm c h (Rel pos m k).
Lemma calm_bind {A C} c h (p : prog A) (f : A -> prog C) : calm c h p -> (forall a, calm c h (f a)) -> calm c h (pbind p f).
Proof. intros H Hf. induction H; cbn; auto; try (constructor; auto). Qed.

Section WithParams.
Context {P : Setup}.
Variables c h : bool.
Lemma cm_acq m l : calm c h (acq_all m l). Proof. induction l; cbn; constructor; auto. Qed.
Lemma cm_rel m l : calm c h (rel_all m l). Proof. induction l; cbn; constructor; auto. Qed.
Lemma cm_lock {A} m k (body : prog A) : calm c h body -> calm c h (with_lock m k body).
Proof. intros H. unfold with_lock. apply calm_bind; [repeat constructor|]. intros _. apply calm_bind; auto. intros a. apply calm_bind; [repeat constructor|]. constructor. Qed.
Lemma cm_mlock {A} m k (body : prog A) : calm c h body -> calm c h (with_mlock m k body).
Proof. intros H. unfold with_mlock. apply calm_bind; [apply cm_acq|]. intros _. apply calm_bind; auto. intros a. apply calm_bind; [apply cm_rel|]. constructor. Qed.
Lemma cm_dict_set k v : calm c h (dict_set k v). Proof. constructor. intros [|]; repeat constructor. Qed.
Lemma cm_dict_del k : calm c h (dict_del k). Proof. constructor. intros [|]; repeat constructor. Qed.
Lemma cm_dict_get k : calm c h (dict_get k). Proof. repeat constructor. Qed.
Lemma cm_exp_get k : calm c h (exp_get k). Proof. repeat constructor. Qed.
Lemma cm_obj_put k v : calm c h (obj_put k v). Proof. repeat constructor. Qed.
Lemma cm_now : calm c h now_unix. Proof. repeat constructor. Qed.
Lemma cm_set_expire k t : calm c h (set_expire k t). Proof. constructor. intros [|]; repeat constructor. Qed.
Lemma cm_delete_expire k : calm c h (delete_expire k). Proof. repeat constructor. Qed.
Lemma cm_purge k : calm c h (delete_expired_key k).
Proof.
  unfold delete_expired_key. apply calm_bind; [constructor; intros [t|]; repeat constructor|]. intros [|]; [|constructor]. apply cm_lock.
  apply calm_bind; [apply cm_dict_del|]. intros _. apply calm_bind; [apply cm_delete_expire|]. constructor.
Qed.
End WithParams.

Ltac cm_step :=
  match goal with
  | |- calm _ _ (Ret _) => apply cm_Ret
  | |- calm _ _ (Range _ _) => apply cm_Range; intros ? ?
  | |- calm _ _ (DSeg _ _) => apply cm_DSeg; intros ?
  | |- calm _ _ (DGet _ _) => apply cm_DGet; intros ?
  | |- calm _ _ (EGet _ _) => apply cm_EGet; intros ?
  | |- calm _ _ (Now _) => apply cm_Now; intros ?
  | |- calm _ _ (with_lock _ _ _) => apply cm_lock
  | |- calm _ _ (with_mlock _ _ _) => apply cm_mlock
  | |- calm _ _ (dict_set _ _) => apply cm_dict_set
  | |- calm _ _ (dict_del _) => apply cm_dict_del
  | |- calm _ _ (dict_get _) => apply cm_dict_get
  | |- calm _ _ (exp_get _) => apply cm_exp_get
  | |- calm _ _ (obj_put _ _) => apply cm_obj_put
  | |- calm _ _ now_unix => apply cm_now
  | |- calm _ _ (set_expire _ _) => apply cm_set_expire
  | |- calm _ _ (delete_expire _) => apply cm_delete_expire
  | |- calm _ _ (delete_expired_key _) => apply cm_purge
  | H : context [calm] |- calm _ _ _ => apply H
  | |- calm _ _ (let '(_, _) := (match ?x with _ => _ end) in _) => destruct x
  | |- calm _ _ (let '(_, _) := ?x in _) => destruct x
  | |- calm _ _ (match ?x with _ => _ end) => destruct x
  | |- calm _ _ (pbind _ _) => apply calm_bind; [|intros ?]
  | |- forall _, _ => intros ?
  | |- calm _ _ _ => progress cbv zeta beta
  end.
Ltac cm_unf :=
  unfold hash_read, set_read, list_read, list_update, drop_if_empty, sdrop_if_empty, set_pop, counter_body,
    pop_run, pop_list, push_list, pushx_list, setopstore_set, expire_run in *.
Ltac cm_cmd := repeat first [cm_step | progress cm_unf].
Tactic Notation "cmc" reference(f) := intros args; unfold f; cm_cmd.

Section Cmds.
Context {P : Setup}.
Notation good := (calm false false).
Lemma cm_del_loop ks : forall n, good (del_loop ks n).
Proof. induction ks; cbn [del_loop]; intros; cm_cmd. Qed.
Lemma cm_exists_loop ks : forall n, good (exists_loop ks n).
Proof. induction ks; cbn [exists_loop]; intros; cm_cmd. Qed.
Lemma cm_mget_loop ks : forall n, good (mget_loop ks n).
Proof. induction ks; cbn [mget_loop]; intros; cm_cmd. Qed.
Lemma cm_mset_loop ks : good (mset_loop ks).
Proof. induction ks as [|[]]; cbn [mset_loop]; intros; cm_cmd. Qed.
Lemma cm_live_keys ks : forall acc, good (live_keys ks acc).
Proof. induction ks; cbn [live_keys]; intros; cm_cmd. Qed.
Lemma cm_read_sets m ks : forall acc, good (read_sets m ks acc).
Proof. induction ks; cbn [read_sets]; intros; cm_cmd. Qed.
Lemma cm_draw_many c n ks : ks <> [] -> calm c false (draw_many n ks).
Proof.
  intros H. induction n; cbn [draw_many]; [apply cm_Ret|]. apply cm_Range. intros [|x l] Hp; [destruct H; apply Permutation_nil; auto|]. cm_cmd.
Qed.
Lemma cm_pop_many n : forall s, good (pop_many n s).
Proof. induction n; cbn [pop_many]; intros; cm_cmd. Qed.
Lemma cm_ping : forall cmd, good (ping_keys cmd). Proof. cmc ping_keys. Qed.
Lemma cm_del : forall cmd, good (del_key cmd). Proof. cmc del_key. apply cm_del_loop. Qed.
Lemma cm_exists : forall cmd, good (exists_key cmd). Proof. cmc exists_key. apply cm_exists_loop. Qed.
Lemma cm_expire : forall cmd, good (expire_key cmd). Proof. cmc expire_key. Qed.
Lemma cm_persist : forall cmd, good (persist_key cmd). Proof. cmc persist_key. Qed.
Lemma cm_ttl : forall cmd, good (ttl_key cmd). Proof. cmc ttl_key. Qed.
Lemma cm_rename : forall cmd, good (rename_key cmd). Proof. cmc rename_key. Qed.
Lemma cm_type : forall cmd, good (type_key cmd). Proof. cmc type_key. Qed.
Lemma cm_get : forall cmd, good (get_string cmd). Proof. cmc get_string. Qed.
Lemma cm_getrange : forall cmd, good (getrange_string cmd). Proof. cmc getrange_string. Qed.
Lemma cm_mget : forall cmd, good (mget_string cmd). Proof. cmc mget_string. apply cm_mget_loop. Qed.
Lemma cm_mset : forall cmd, good (mset_string cmd). Proof. cmc mset_string. all: try apply cm_mset_loop. Qed.
Lemma cm_setex : forall cmd, good (setex_string cmd). Proof. cmc setex_string. Qed.
Lemma cm_setnx : forall cmd, good (setnx_string cmd). Proof. cmc setnx_string. Qed.
Lemma cm_strlen : forall cmd, good (strlen_string cmd). Proof. cmc strlen_string. Qed.
Lemma cm_incr : forall cmd, good (incr_string cmd). Proof. cmc incr_string. Qed.
Lemma cm_incrby : forall cmd, good (incrby_string cmd). Proof. cmc incrby_string. Qed.
Lemma cm_decr : forall cmd, good (decr_string cmd). Proof. cmc decr_string. Qed.
Lemma cm_decrby : forall cmd, good (decrby_string cmd). Proof. cmc decrby_string. Qed.
Lemma cm_incrbyfloat : forall cmd, good (incrbyfloat_string cmd). Proof. cmc incrbyfloat_string. Qed.
Lemma cm_append : forall cmd, good (append_string cmd). Proof. cmc append_string. Qed.
Lemma cm_hdel : forall cmd, good (hdel_hash cmd). Proof. cmc hdel_hash. Qed.
Lemma cm_hexists : forall cmd, good (hexists_hash cmd). Proof. cmc hexists_hash. Qed.
Lemma cm_hget : forall cmd, good (hget_hash cmd). Proof. cmc hget_hash. Qed.
Lemma cm_hgetall : forall cmd, good (hgetall_hash cmd). Proof. cmc hgetall_hash. Qed.
Lemma cm_hincrby : forall cmd, good (hincrby_hash cmd). Proof. cmc hincrby_hash. Qed.
Lemma cm_hincrbyfloat : forall cmd, good (hincrbyfloat_hash cmd). Proof. cmc hincrbyfloat_hash. Qed.
Lemma cm_hkeys : forall cmd, good (hkeys_hash cmd). Proof. cmc hkeys_hash. Qed.
Lemma cm_hlen : forall cmd, good (hlen_hash cmd). Proof. cmc hlen_hash. Qed.
Lemma cm_hmget : forall cmd, good (hmget_hash cmd). Proof. cmc hmget_hash. Qed.
Lemma hset_all_even n : forall l h, (length l < n)%nat -> Nat.even (length l) = true -> hset_all h l <> None.
Proof.
  induction n as [|n IH]; [lia|]. intros [|a [|b r]] h0 Hl He; [discriminate|discriminate|]. cbn [hset_all].
  destruct (hash_set h0 _ _) as [x h1]. specialize (IH r h1 ltac:(cbn in Hl; lia) He). destruct (hset_all h1 r) as [[y h2]|]; congruence.
Qed.
Lemma cm_hset_common : forall cmd f, good (hset_common cmd f).
Proof.
  intros cmd f. unfold hset_common. destruct cmd as [|n [|k [|x [|y r]]]]; try apply cm_Ret. destruct (Nat.odd _) eqn:E; [apply cm_Ret|].
  assert (He : Nat.even (length (x :: y :: r)) = true) by (rewrite <- Nat.negb_odd; change (Nat.odd (length (x :: y :: r)) = false) in E; rewrite E; reflexivity).
  assert (Hg : forall h0, good (match hset_all h0 (x :: y :: r) with None => Crash | Some (n, h') => obj_put (str k) (VHash h') ;;; Ret (f n) end)).
  { intros h0. pose proof (hset_all_even (S (length (x :: y :: r))) (x :: y :: r) h0 ltac:(lia) He) as Hn.
    destruct (hset_all h0 (x :: y :: r)) as [[m h']|]; [|congruence]. cm_cmd. }
  cbv zeta. apply calm_bind; [apply cm_purge|]. intros _. apply cm_lock. apply calm_bind; [apply cm_dict_get|]. intros [[]|]; try apply cm_Ret; try apply Hg.
  apply calm_bind; [apply cm_dict_set|]. intros _. apply Hg.
Qed.
Lemma cm_hmset : forall cmd, good (hmset_hash cmd). Proof. intros. apply cm_hset_common. Qed.
Lemma cm_hset : forall cmd, good (hset_hash cmd). Proof. intros. apply cm_hset_common. Qed.
Lemma cm_hsetnx : forall cmd, good (hsetnx_hash cmd). Proof. cmc hsetnx_hash. Qed.
Lemma cm_hvals : forall cmd, good (hvals_hash cmd). Proof. cmc hvals_hash. Qed.
Lemma cm_hstrlen : forall cmd, good (hstrlen_hash cmd). Proof. cmc hstrlen_hash. Qed.
Lemma cm_llen : forall cmd, good (llen_list cmd). Proof. cmc llen_list. Qed.
Lemma cm_lpop : forall cmd, good (lpop_list cmd). Proof. cmc lpop_list. Qed.
Lemma cm_rpop : forall cmd, good (rpop_list cmd). Proof. cmc rpop_list. Qed.
Lemma cm_lpos : forall cmd, good (lpos_list cmd). Proof. cmc lpos_list. Qed.
Lemma cm_lpush : forall cmd, good (lpush_list cmd). Proof. cmc lpush_list. Qed.
Lemma cm_rpush : forall cmd, good (rpush_list cmd). Proof. cmc rpush_list. Qed.
Lemma cm_lpushx : forall cmd, good (lpushx_list cmd). Proof. cmc lpushx_list. Qed.
Lemma cm_rpushx : forall cmd, good (rpushx_list cmd). Proof. cmc rpushx_list. Qed.
Lemma cm_lrange : forall cmd, good (lrange_list cmd). Proof. cmc lrange_list. Qed.
Lemma cm_lrem : forall cmd, good (lrem_list cmd). Proof. cmc lrem_list. Qed.
Lemma cm_linsert : forall cmd, calm false true (linsert_list cmd). Proof. cmc linsert_list. all: apply cm_Hang; reflexivity. Qed.
Lemma cm_sadd : forall cmd, good (sadd_set cmd). Proof. cmc sadd_set. Qed.
Lemma cm_scard : forall cmd, good (scard_set cmd). Proof. cmc scard_set. Qed.
Lemma cm_sismember : forall cmd, good (sismember_set cmd). Proof. cmc sismember_set. Qed.
Lemma cm_smembers : forall cmd, good (smembers_set cmd). Proof. cmc smembers_set. Qed.
Lemma cm_sdiffstore : forall cmd, good (sdiffstore_set cmd). Proof. cmc sdiffstore_set. all: first [apply cm_live_keys|apply cm_read_sets]. Qed.
Lemma cm_sinterstore : forall cmd, good (sinterstore_set cmd). Proof. cmc sinterstore_set. all: first [apply cm_live_keys|apply cm_read_sets]. Qed.
Lemma cm_sunionstore : forall cmd, good (sunionstore_set cmd). Proof. cmc sunionstore_set. all: first [apply cm_live_keys|apply cm_read_sets]. Qed.
Lemma cm_srem : forall cmd, good (srem_set cmd). Proof. cmc srem_set. Qed.
Lemma cm_spop : forall cmd, good (spop_set cmd). Proof. cmc spop_set. all: unfold spop_run; cm_cmd. all: try apply cm_pop_many. Qed.
(** Commands that panic in some cases. *)
Notation loopless := (calm true false).
Lemma cm_loose {A} c h c' h' (p : prog A) : (c = true -> c' = true) -> (h = true -> h' = true) -> calm c h p -> calm c' h' p.
Proof. intros H1 H2 H. induction H; constructor; auto. Qed.
Lemma cm_random_keys sz keys n : loopless (random_keys sz keys n).
Proof.
  unfold random_keys. destruct (_ || _) eqn:E; [apply cm_Ret|]. apply orb_false_iff in E as [_ E]. apply Z.eqb_neq in E.
  destruct (0 <? n); [apply cm_Range; intros; apply cm_Ret|]. cbv zeta. destruct (make_ok _ _); [|apply cm_Crash; reflexivity]. apply cm_draw_many. intros ->. apply E. reflexivity.
Qed.
Ltac crashing := repeat first [cm_step | progress cm_unf | apply cm_random_keys | apply cm_Crash; reflexivity | eapply cm_loose; [| |first [apply cm_live_keys|apply cm_read_sets]]; discriminate].
Lemma cm_keys_fill n : forall i room, loopless (keys_fill n i room).
Proof. induction n; cbn [keys_fill]; intros; crashing. Qed.
Lemma cm_keys_loop p ks : loopless (keys_loop p ks).
Proof.
  induction ks as [|k ks IH]; cbn [keys_loop]; [apply cm_Ret|]. apply calm_bind; [apply cm_purge|]. intros [|]; auto.
  pose proof (glob_terminates p k). destruct (glob p k) as [[|]| |]; auto; [|apply cm_Crash; reflexivity|congruence]. crashing.
Qed.
Lemma cm_keys : forall cmd, loopless (keys_key cmd).
Proof.
  intros cmd. unfold keys_key, dict_keys. destruct cmd as [|? [|p []]]; try apply cm_Ret. apply calm_bind.
  - apply cm_CntLoad. intros x. destruct (make_ok x 16); [apply cm_keys_fill|apply cm_Crash; reflexivity].
  - intros ks. apply calm_bind; [apply cm_keys_loop|]. intros. apply cm_Ret.
Qed.
Lemma cm_set_loops : forall cmd, loopless (set_string cmd). Proof. intros args. unfold set_string. crashing. Qed.
Lemma cm_setrange_loops : forall cmd, loopless (setrange_string cmd). Proof. intros args. unfold setrange_string. crashing. Qed.
Lemma cm_hrandfield : forall cmd, loopless (hrandfield_hash cmd). Proof. intros args. unfold hrandfield_hash, hrandfield_run. crashing. Qed.
Lemma cm_srandmember : forall cmd, loopless (srandmember_set cmd). Proof. intros args. unfold srandmember_set, srandmember_run. crashing. Qed.
Lemma cm_lindex_loops : forall cmd, loopless (lindex_list cmd). Proof. intros args. unfold lindex_list. crashing. Qed.
Lemma cm_lset_loops : forall cmd, loopless (lset_list cmd). Proof. intros args. unfold lset_list. crashing. Qed.
Lemma cm_ltrim : forall cmd, loopless (ltrim_list cmd). Proof. intros args. unfold ltrim_list. crashing. Qed.
Lemma cm_lmove : forall cmd, loopless (lmove_list cmd). Proof. intros args. unfold lmove_list. crashing. Qed.
Lemma cm_smove : forall cmd, loopless (smove_set cmd). Proof. intros args. unfold smove_set. crashing. Qed.
Lemma cm_setop op : forall cmd, loopless (setop_set op cmd). Proof. intros args. unfold setop_set. crashing. Qed.
End Cmds.
