(** Every command obeys the lock discipline of Wf.v. *)
From Verif Require Export Wf.

Section WithParams.
Context {P : Setup}.

Lemma assoc_in {A} n (l : list (bytes * A)) x : assoc n l = Some x -> In (n, x) l.
Proof.
  induction l as [|[m y] l IH]; cbn; [discriminate|].
  destruct (beq n m) eqn:E; [|auto]. apply bool_decide_eq_true in E. intros [= ->]; subst; auto.
Qed.

(** A property of all commands, table entry by table entry. *)
Lemma table_ind (Q : command -> prog rdata -> Prop) :
  Q [] Crash -> (forall n args, Q (n :: args) (Ret (unknown_cmd (str n)))) ->
  Forall (fun e => forall n args, to_lower (str n) = e.1 -> Q (n :: args) (e.2 (n :: args))) cmd_table ->
  forall cmd, Q cmd (exec_in_db cmd).
Proof.
  intros H0 H1 HF [|n args]; [exact H0|]. unfold exec_in_db.
  destruct (lookup_cmd (to_lower (str n))) as [ex|] eqn:E; [|auto].
  apply assoc_in in E. rewrite List.Forall_forall in HF. apply (HF (to_lower (str n), ex)); auto.
Qed.

(** Is the command called [s]? *)
Definition cmd_is (s : string) (cmd : command) : bool :=
  match cmd with [] => false | n :: _ => bool_decide (to_lower (str n) = B s) end.
(** The keys a command may touch: those it names; KEYS looks at all. *)
Definition touched (cmd : command) (k : bytes) : Prop := k ∈ key_args cmd \/ cmd_is "keys" cmd = true.
Definition cmd_wf (cmd : command) (p : prog rdata) : Prop :=
  wf (touched cmd) (cmd_is "setnx" cmd) (cmd_is "keys" cmd) Idle Idle p.

Lemma wf_del_loop (K : bytes -> Prop) u s ks n : (forall k, k ∈ ks -> K (str k)) -> wf K u s Idle Idle (del_loop ks n).
Proof.
  revert n. induction ks as [|k ks IH]; intros n H; cbn [del_loop exists_loop mget_loop keys_loop keys_fill mset_loop live_keys read_sets draw_many pop_many]; [constructor|].
  assert (K (str k)) by (apply H; left).
  assert (IH' : forall n, wf K u s Idle Idle (del_loop ks n)) by (intros; apply IH; intros; apply H; right; auto).
  wf_go.
Qed.
Lemma wf_exists_loop (K : bytes -> Prop) u s ks n : (forall k, k ∈ ks -> K (str k)) -> wf K u s Idle Idle (exists_loop ks n).
Proof.
  revert n. induction ks as [|k ks IH]; intros n H; cbn [del_loop exists_loop mget_loop keys_loop keys_fill mset_loop live_keys read_sets draw_many pop_many]; [constructor|].
  assert (K (str k)) by (apply H; left).
  assert (IH' : forall n, wf K u s Idle Idle (exists_loop ks n)) by (intros; apply IH; intros; apply H; right; auto).
  wf_go.
Qed.
Lemma wf_mget_loop (K : bytes -> Prop) u s ks n : (forall k, k ∈ ks -> K (str k)) -> wf K u s Idle Idle (mget_loop ks n).
Proof.
  revert n. induction ks as [|k ks IH]; intros n H; cbn [del_loop exists_loop mget_loop keys_loop keys_fill mset_loop live_keys read_sets draw_many pop_many]; [constructor|].
  assert (K (str k)) by (apply H; left).
  assert (IH' : forall n, wf K u s Idle Idle (mget_loop ks n)) by (intros; apply IH; intros; apply H; right; auto).
  wf_go.
Qed.
Lemma wf_keys_loop (K : bytes -> Prop) u s p ks : (forall k, K k) -> wf K u s Idle Idle (keys_loop p ks).
Proof.
  intros H. induction ks as [|k ks IH]; cbn [del_loop exists_loop mget_loop keys_loop keys_fill mset_loop live_keys read_sets draw_many pop_many]; [constructor|]. specialize (H k). wf_go.
Qed.
Lemma wf_keys_fill (K : bytes -> Prop) u n i c : wf K u true Idle Idle (keys_fill n i c).
Proof.
  revert i c. induction n as [|n IH]; intros; cbn [del_loop exists_loop mget_loop keys_loop keys_fill mset_loop live_keys read_sets draw_many pop_many]; [constructor|].
  constructor; auto. intros l. wf_go.
Qed.
Lemma wf_mset_loop (K : bytes -> Prop) u s l h : (forall k v, (k, v) ∈ l -> K k /\ canwrite h k) -> wf K u s h h (mset_loop l).
Proof.
  induction l as [|[k v] l IH]; intros H; cbn [del_loop exists_loop mget_loop keys_loop keys_fill mset_loop live_keys read_sets draw_many pop_many]; [constructor|].
  destruct (H k v ltac:(left)). assert (wf K u s h h (mset_loop l)).
  { apply IH. intros. eapply H. right; eauto. }
  wf_go.
Qed.
Lemma wf_live_keys {C} (K : bytes -> Prop) u s ks acc (f : list bytes -> prog C) : (forall k, k ∈ ks -> K (str k)) ->
  (forall l, (forall k, k ∈ l -> k ∈ acc \/ k ∈ map str ks) -> wf K u s Idle Idle (f l)) ->
  wf K u s Idle Idle (pbind (live_keys ks acc) f).
Proof.
  revert acc f. induction ks as [|k ks IH]; intros acc f H Hf; cbn [del_loop exists_loop mget_loop keys_loop keys_fill mset_loop live_keys read_sets draw_many pop_many].
  - apply Hf. auto.
  - assert (K (str k)) by (apply H; left).
    assert (HR : forall b : bool, wf K u s Idle Idle (pbind (live_keys ks (if b then acc else acc ++ [str k])) f)).
    { intros b. apply IH; [intros; apply H; right; auto|]. intros l Hl. apply Hf. intros x Hx.
      destruct (Hl x Hx) as [?|?]; [|right; right; auto].
      destruct b; auto. apply elem_of_app in H1 as [?|?%elem_of_list_singleton]; subst; auto.
      right; left. }
    (* the bind of a bind *)
    unfold delete_expired_key, check_expire. cbn.
    constructor; auto. intros [t|]; cbn; [|apply (HR false)].
    constructor. intros now. destruct (t <? now); [|apply (HR false)].
    unfold with_lock, lock, unlock, dict_del, delete_expire. cbn.
    constructor; [exists (str k); auto|]. constructor; auto using canwrite_lock.
    assert (exists l, Grow MW [lockpos (str k)] = Grow MW l) by eauto.
    intros []; cbn; [constructor; auto; intros; constructor; auto|];
      (constructor; auto using canwrite_lock; intros []; cbn; constructor; apply (HR true)).
Qed.
Lemma wf_read_sets (K : bytes -> Prop) u s m ks acc h : (forall k, k ∈ ks -> K k /\ canread h k) ->
  wf K u s h h (read_sets m ks acc).
Proof.
  revert acc. induction ks as [|k ks IH]; intros acc H; cbn [del_loop exists_loop mget_loop keys_loop keys_fill mset_loop live_keys read_sets draw_many pop_many]; [constructor|].
  destruct (H k ltac:(left)).
  assert (forall acc, wf K u s h h (read_sets m ks acc)).
  { intros. apply IH. intros. apply H. right; auto. }
  wf_go.
Qed.
Lemma wf_draw_many (K : bytes -> Prop) u s h n l : wf K u s h h (draw_many n l).
Proof. induction n; cbn [draw_many]; wf_go. Qed.
Lemma wf_random_keys (K : bytes -> Prop) u s h sz l c : wf K u s h h (random_keys sz l c).
Proof. unfold random_keys. wf_go. apply wf_draw_many. Qed.
Lemma wf_pop_many (K : bytes -> Prop) u s h n x : wf K u s h h (pop_many n x).
Proof. revert x. induction n; cbn [pop_many]; intros; unfold set_pop; wf_go. Qed.

Lemma touched_first n args k s : to_lower (str n) = B s -> keykind_of (B s) = KFirst ->
  touched (n :: k :: args) (str k).
Proof. intros E E2. left. unfold key_args. rewrite E, E2. left. Qed.
Lemma touched_two1 n args k s : to_lower (str n) = B s -> keykind_of (B s) = KTwo ->
  touched (n :: k :: args) (str k).
Proof. intros E E2. left. unfold key_args. rewrite E, E2. left. Qed.
Lemma touched_two2 n args k0 k s : to_lower (str n) = B s -> keykind_of (B s) = KTwo ->
  touched (n :: k0 :: k :: args) (str k).
Proof. intros E E2. left. unfold key_args. rewrite E, E2. cbn. right; left. Qed.
Lemma touched_all n args s : to_lower (str n) = B s -> keykind_of (B s) = KAll ->
  forall k, k ∈ args -> touched (n :: args) (str k).
Proof. intros E E2 k Hk. left. unfold key_args. rewrite E, E2. apply elem_of_list_fmap. eauto. Qed.

End WithParams.

#[export] Hint Unfold hash_read set_read list_read list_update drop_if_empty sdrop_if_empty set_pop counter_body
  expire_run hrandfield_run spop_run srandmember_run pop_run : wfdb.
Ltac wf_unf :=
  unfold hash_read, set_read, list_read, list_update, drop_if_empty, sdrop_if_empty, set_pop, counter_body,
    expire_run, hrandfield_run, spop_run, srandmember_run, pop_run in *.
Ltac wf_one_key Hn :=
  match goal with |- cmd_wf (?n :: _) _ =>
    assert (HK : forall k a, touched (n :: k :: a) (str k))
      by (intros; eapply touched_first; [exact Hn | vm_compute; reflexivity])
  end;
  unfold cmd_wf.
Ltac wf_cmd := repeat first [wf_step | apply wf_random_keys | apply wf_pop_many | solve [auto] | progress wf_unf].

Section WithParams2.
Context {P : Setup}.

Definition wf_cmd_named (s : string) (ex : command -> prog rdata) : Prop :=
  forall n args, to_lower (str n) = B s -> cmd_wf (n :: args) (ex (n :: args)).

Tactic Notation "single" reference(f) := intros n args Hn; wf_one_key Hn; unfold f; wf_cmd.

Lemma wf_expire : wf_cmd_named "expire" expire_key.
Proof. single expire_key. Qed.
Lemma wf_persist : wf_cmd_named "persist" persist_key.
Proof. single persist_key. Qed.
Lemma wf_ttl : wf_cmd_named "ttl" ttl_key.
Proof. single ttl_key. Qed.
Lemma wf_type : wf_cmd_named "type" type_key.
Proof. single type_key. Qed.
Lemma wf_set : wf_cmd_named "set" set_string.
Proof. single set_string. Qed.
Lemma wf_get : wf_cmd_named "get" get_string.
Proof. single get_string. Qed.
Lemma wf_getrange : wf_cmd_named "getrange" getrange_string.
Proof. single getrange_string. Qed.
Lemma wf_setrange : wf_cmd_named "setrange" setrange_string.
Proof. single setrange_string. Qed.
Lemma wf_setex : wf_cmd_named "setex" setex_string.
Proof. single setex_string. Qed.
Lemma wf_strlen : wf_cmd_named "strlen" strlen_string.
Proof. single strlen_string. Qed.
Lemma wf_incr : wf_cmd_named "incr" incr_string.
Proof. single incr_string. Qed.
Lemma wf_incrby : wf_cmd_named "incrby" incrby_string.
Proof. single incrby_string. Qed.
Lemma wf_decr : wf_cmd_named "decr" decr_string.
Proof. single decr_string. Qed.
Lemma wf_decrby : wf_cmd_named "decrby" decrby_string.
Proof. single decrby_string. Qed.
Lemma wf_incrbyfloat : wf_cmd_named "incrbyfloat" incrbyfloat_string.
Proof. single incrbyfloat_string. Qed.
Lemma wf_append : wf_cmd_named "append" append_string.
Proof. single append_string. Qed.
Lemma wf_hdel : wf_cmd_named "hdel" hdel_hash.
Proof. single hdel_hash. Qed.
Lemma wf_hexists : wf_cmd_named "hexists" hexists_hash.
Proof. single hexists_hash. Qed.
Lemma wf_hget : wf_cmd_named "hget" hget_hash.
Proof. single hget_hash. Qed.
Lemma wf_hgetall : wf_cmd_named "hgetall" hgetall_hash.
Proof. single hgetall_hash. Qed.
Lemma wf_hincrby : wf_cmd_named "hincrby" hincrby_hash.
Proof. single hincrby_hash. Qed.
Lemma wf_hincrbyfloat : wf_cmd_named "hincrbyfloat" hincrbyfloat_hash.
Proof. single hincrbyfloat_hash. Qed.
Lemma wf_hkeys : wf_cmd_named "hkeys" hkeys_hash.
Proof. single hkeys_hash. Qed.
Lemma wf_hlen : wf_cmd_named "hlen" hlen_hash.
Proof. single hlen_hash. Qed.
Lemma wf_hmget : wf_cmd_named "hmget" hmget_hash.
Proof. single hmget_hash. Qed.
Lemma wf_hmset : wf_cmd_named "hmset" hmset_hash.
Proof. intros n args Hn; wf_one_key Hn; unfold hmset_hash, hset_common; wf_cmd. Qed.
Lemma wf_hset : wf_cmd_named "hset" hset_hash.
Proof. intros n args Hn; wf_one_key Hn; unfold hset_hash, hset_common; wf_cmd. Qed.
Lemma wf_hsetnx : wf_cmd_named "hsetnx" hsetnx_hash.
Proof. single hsetnx_hash. Qed.
Lemma wf_hvals : wf_cmd_named "hvals" hvals_hash.
Proof. single hvals_hash. Qed.
Lemma wf_hstrlen : wf_cmd_named "hstrlen" hstrlen_hash.
Proof. single hstrlen_hash. Qed.
Lemma wf_hrandfield : wf_cmd_named "hrandfield" hrandfield_hash.
Proof. single hrandfield_hash. Qed.
Lemma wf_lindex : wf_cmd_named "lindex" lindex_list.
Proof. single lindex_list. Qed.
Lemma wf_linsert : wf_cmd_named "linsert" linsert_list.
Proof. single linsert_list. Qed.
Lemma wf_llen : wf_cmd_named "llen" llen_list.
Proof. single llen_list. Qed.
Lemma wf_lpop : wf_cmd_named "lpop" lpop_list.
Proof. intros n args Hn; wf_one_key Hn; unfold lpop_list, pop_list; wf_cmd. Qed.
Lemma wf_lpos : wf_cmd_named "lpos" lpos_list.
Proof. single lpos_list. Qed.
Lemma wf_lpush : wf_cmd_named "lpush" lpush_list.
Proof. intros n args Hn; wf_one_key Hn; unfold lpush_list, push_list; wf_cmd. Qed.
Lemma wf_lpushx : wf_cmd_named "lpushx" lpushx_list.
Proof. intros n args Hn; wf_one_key Hn; unfold lpushx_list, pushx_list; wf_cmd. Qed.
Lemma wf_lrange : wf_cmd_named "lrange" lrange_list.
Proof. single lrange_list. Qed.
Lemma wf_lrem : wf_cmd_named "lrem" lrem_list.
Proof. single lrem_list. Qed.
Lemma wf_lset : wf_cmd_named "lset" lset_list.
Proof. single lset_list. Qed.
Lemma wf_ltrim : wf_cmd_named "ltrim" ltrim_list.
Proof. single ltrim_list. Qed.
Lemma wf_rpop : wf_cmd_named "rpop" rpop_list.
Proof. intros n args Hn; wf_one_key Hn; unfold rpop_list, pop_list; wf_cmd. Qed.
Lemma wf_rpush : wf_cmd_named "rpush" rpush_list.
Proof. intros n args Hn; wf_one_key Hn; unfold rpush_list, push_list; wf_cmd. Qed.
Lemma wf_rpushx : wf_cmd_named "rpushx" rpushx_list.
Proof. intros n args Hn; wf_one_key Hn; unfold rpushx_list, pushx_list; wf_cmd. Qed.
Lemma wf_sadd : wf_cmd_named "sadd" sadd_set.
Proof. single sadd_set. Qed.
Lemma wf_scard : wf_cmd_named "scard" scard_set.
Proof. single scard_set. Qed.
Lemma wf_sismember : wf_cmd_named "sismember" sismember_set.
Proof. single sismember_set. Qed.
Lemma wf_smembers : wf_cmd_named "smembers" smembers_set.
Proof. single smembers_set. Qed.
Lemma wf_spop : wf_cmd_named "spop" spop_set.
Proof. single spop_set. Qed.
Lemma wf_srandmember : wf_cmd_named "srandmember" srandmember_set.
Proof. single srandmember_set. Qed.
Lemma wf_srem : wf_cmd_named "srem" srem_set.
Proof. single srem_set. Qed.

Lemma wf_ping : wf_cmd_named "ping" ping_keys.
Proof. intros n args Hn. unfold cmd_wf, ping_keys. wf_cmd. Qed.
Lemma wf_setnx : wf_cmd_named "setnx" setnx_string.
Proof.
  intros n args Hn. wf_one_key Hn.
  replace (cmd_is "setnx" (n :: args)) with true by (unfold cmd_is; rewrite Hn; reflexivity).
  unfold setnx_string. wf_cmd.
Qed.
Lemma wf_keys : wf_cmd_named "keys" keys_key.
Proof.
  intros n args Hn. unfold cmd_wf, touched.
  replace (cmd_is "keys" (n :: args)) with true by (unfold cmd_is; rewrite Hn; reflexivity).
  unfold keys_key, dict_keys. destruct args as [|p [|]]; wf_cmd.
  - constructor; auto. intros c. destruct (make_ok c 16); [apply wf_keys_fill|constructor].
  - apply wf_keys_loop. auto.
Qed.
Lemma wf_mset : wf_cmd_named "mset" mset_string.
Proof.
  intros n args Hn. unfold cmd_wf.
  assert (HK : forall k, k ∈ map str (alternate args) -> touched (n :: args) k).
  { intros k Hk. left. unfold key_args. rewrite Hn. vm_compute (keykind_of _). auto. }
  assert (HP : forall l ps, pairs_of l = Some ps -> map fst ps = map str (alternate l)).
  { clear. intros l. remember (length l) as m eqn:E. revert l E. induction m as [m IH] using lt_wf_ind.
    intros [|k [|v l]] E ps H; cbn in *; try discriminate; [injection H as <-; auto|].
    destruct (pairs_of l) as [q|] eqn:Eq; [|discriminate]. injection H as <-. cbn. f_equal.
    eapply (IH (length l)); eauto. lia. }
  unfold mset_string. destruct args as [|k [|v r]]; [constructor..|].
  destruct (pairs_of (k :: v :: r)) as [ps|] eqn:E; [|constructor].
  apply HP in E. assert (HM : forall x, x ∈ map fst ps -> touched (n :: k :: v :: r) x) by (intros x; rewrite E; apply HK). wf_step. eapply wf_bind; [apply wf_mset_loop|intros ?; constructor].
  intros k' v' Hk'. assert (k' ∈ map fst ps) by (apply elem_of_list_fmap; exists (k', v'); auto). split.
  - apply HK. rewrite <- E. auto.
  - apply canwrite_mlock; auto.
Qed.

Ltac all_keys Hn :=
  match goal with |- cmd_wf (?n :: ?args) _ =>
    assert (HK : forall k, k ∈ args -> touched (n :: args) (str k))
      by (eapply touched_all; [exact Hn | vm_compute; reflexivity])
  end; unfold cmd_wf.
Lemma wf_del : wf_cmd_named "del" del_key.
Proof. intros n args Hn. all_keys Hn. unfold del_key. destruct args; wf_cmd. apply wf_del_loop; auto. Qed.
Lemma wf_exists : wf_cmd_named "exists" exists_key.
Proof. intros n args Hn. all_keys Hn. unfold exists_key. destruct args; wf_cmd. apply wf_exists_loop; auto. Qed.
Lemma wf_mget : wf_cmd_named "mget" mget_string.
Proof. intros n args Hn. all_keys Hn. unfold mget_string. destruct args; wf_cmd. apply wf_mget_loop; auto. Qed.
Lemma wf_setop op s : keykind_of (B s) = KAll -> wf_cmd_named s (setop_set op).
Proof.
  intros Hs n args Hn.
  assert (HK : forall k, k ∈ args -> touched (n :: args) (str k)) by (eapply touched_all; eauto).
  unfold cmd_wf, setop_set. destruct args as [|k r]; [constructor|].
  apply wf_live_keys; [auto|]. intros l Hl.
  assert (HK' : forall x, x ∈ l -> touched (n :: k :: r) x).
  { intros x Hx. destruct (Hl x Hx) as [H|H]; [inversion H|]. apply elem_of_list_fmap in H as (y & -> & Hy). auto. }
  clear Hl. wf_step. destruct l as [|k0 ks]; [constructor|].
  assert (touched (n :: k :: r) k0) by (apply HK'; left).
  assert (HR : forall m acc, wf (touched (n :: k :: r)) (cmd_is "setnx" (n :: k :: r)) (cmd_is "keys" (n :: k :: r))
     (grown MR (sorted_locks (k0 :: ks))) (grown MR (sorted_locks (k0 :: ks))) (read_sets m ks acc)).
  { intros m acc. apply wf_read_sets. intros x Hx. split; [apply HK'; right; auto|].
    apply canread_mlock. right; auto. }
  wf_cmd.
Qed.
Lemma wf_setopstore op s : keykind_of (B s) = KAll -> wf_cmd_named s (setopstore_set op).
Proof.
  intros Hs n args Hn.
  assert (HK : forall k, k ∈ args -> touched (n :: args) (str k)) by (eapply touched_all; eauto).
  unfold cmd_wf, setopstore_set. destruct args as [|d [|k r]]; [constructor..|].
  assert (touched (n :: d :: k :: r) (str d)) by (apply HK; left).
  eapply wf_bind; [apply wf_delete_expired_key; auto|]. intros _.
  apply wf_live_keys; [intros; apply HK; right; auto|]. intros l Hl.
  assert (HK' : forall x, x ∈ l -> touched (n :: d :: k :: r) x).
  { intros x Hx. destruct (Hl x Hx) as [H0|H0]; [inversion H0|]. apply elem_of_list_fmap in H0 as (y & -> & Hy).
    apply HK. right; auto. }
  clear Hl. destruct l as [|k0 ks]; [constructor|].
  assert (forall x, x ∈ str d :: k0 :: ks -> touched (n :: d :: k :: r) x)
    by (intros x Hx; apply elem_of_cons in Hx as [->|Hx]; auto). wf_step.
  assert (touched (n :: d :: k :: r) k0) by (apply HK'; left).
  assert (HR : forall m acc, wf (touched (n :: d :: k :: r)) (cmd_is "setnx" (n :: d :: k :: r)) (cmd_is "keys" (n :: d :: k :: r))
     (grown MW (sorted_locks (str d :: k0 :: ks))) (grown MW (sorted_locks (str d :: k0 :: ks))) (read_sets m ks acc)).
  { intros m acc. apply wf_read_sets. intros x Hx. split; [apply HK'; right; auto|].
    apply canread_mlock. right; right; auto. }
  wf_cmd.
Qed.
Ltac two_keys Hn :=
  match goal with |- cmd_wf (?n :: ?args) _ =>
    assert (HK : forall k r, touched (n :: k :: r) (str k))
      by (intros; eapply touched_two1; [exact Hn | vm_compute; reflexivity]);
    assert (HK2 : forall k0 k r, touched (n :: k0 :: k :: r) (str k))
      by (intros; eapply touched_two2; [exact Hn | vm_compute; reflexivity])
  end; unfold cmd_wf.
Lemma wf_rename : wf_cmd_named "rename" rename_key.
Proof. intros n args Hn. two_keys Hn. unfold rename_key. wf_cmd. Qed.
Lemma wf_lmove : wf_cmd_named "lmove" lmove_list.
Proof. intros n args Hn. two_keys Hn. unfold lmove_list. wf_cmd. Qed.
Lemma wf_smove : wf_cmd_named "smove" smove_set.
Proof. intros n args Hn. two_keys Hn. unfold smove_set. wf_cmd. Qed.

Theorem exec_wf cmd : cmd_wf cmd (exec_in_db cmd).
Proof.
  apply table_ind; clear cmd.
  - constructor.
  - intros. constructor.
  - unfold cmd_table. repeat (apply List.Forall_cons; [cbn [fst snd]|]); [..|apply List.Forall_nil].
    + exact wf_ping.
    + exact wf_del.
    + exact wf_exists.
    + exact wf_keys.
    + exact wf_expire.
    + exact wf_persist.
    + exact wf_ttl.
    + exact wf_rename.
    + exact wf_type.
    + exact wf_set.
    + exact wf_get.
    + exact wf_getrange.
    + exact wf_setrange.
    + exact wf_mget.
    + exact wf_mset.
    + exact wf_setex.
    + exact wf_setnx.
    + exact wf_strlen.
    + exact wf_incr.
    + exact wf_incrby.
    + exact wf_decr.
    + exact wf_decrby.
    + exact wf_incrbyfloat.
    + exact wf_append.
    + exact wf_hdel.
    + exact wf_hexists.
    + exact wf_hget.
    + exact wf_hgetall.
    + exact wf_hincrby.
    + exact wf_hincrbyfloat.
    + exact wf_hkeys.
    + exact wf_hlen.
    + exact wf_hmget.
    + exact wf_hmset.
    + exact wf_hset.
    + exact wf_hsetnx.
    + exact wf_hvals.
    + exact wf_hstrlen.
    + exact wf_hrandfield.
    + exact wf_lindex.
    + exact wf_linsert.
    + exact wf_llen.
    + exact wf_lmove.
    + exact wf_lpop.
    + exact wf_lpos.
    + exact wf_lpush.
    + exact wf_lpushx.
    + exact wf_lrange.
    + exact wf_lrem.
    + exact wf_lset.
    + exact wf_ltrim.
    + exact wf_rpop.
    + exact wf_rpush.
    + exact wf_rpushx.
    + exact wf_sadd.
    + exact wf_scard.
    + apply (wf_setop _ "sdiff"); vm_compute; reflexivity.
    + apply (wf_setopstore _ "sdiffstore"); vm_compute; reflexivity.
    + apply (wf_setop _ "sinter"); vm_compute; reflexivity.
    + apply (wf_setopstore _ "sinterstore"); vm_compute; reflexivity.
    + exact wf_sismember.
    + exact wf_smembers.
    + exact wf_smove.
    + exact wf_spop.
    + exact wf_srandmember.
    + exact wf_srem.
    + apply (wf_setop _ "sunion"); vm_compute; reflexivity.
    + apply (wf_setopstore _ "sunionstore"); vm_compute; reflexivity.
Qed.

End WithParams2.
