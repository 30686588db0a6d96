(** Every reply of every command is a RESP value, unless it echoes CR or LF from the client. *)
From Verif Require Export WfCmds FrameProofs.

(** Every value [p] can return, whatever the shared state answers, satisfies [Q]. *)
Inductive rets {A} (Q : A -> Prop) : prog A -> Prop :=
| rets_Ret a : Q a -> rets Q (Ret a)
| rets_Crash : rets Q Crash
| rets_Hang : rets Q Hang
| rets_Now k : (forall t, rets Q (k t)) -> rets Q (Now k)
| rets_Range l k : (forall x, rets Q (k x)) -> rets Q (Range l k)
| rets_DGet key k : (forall x, rets Q (k x)) -> rets Q (DGet key k)
| rets_DSet key v k : (forall x, rets Q (k x)) -> rets Q (DSet key v k)
| rets_DMut key v k : rets Q k -> rets Q (DMut key v k)
| rets_DDel key k : (forall x, rets Q (k x)) -> rets Q (DDel key k)
| rets_DSeg i k : (forall x, rets Q (k x)) -> rets Q (DSeg i k)
| rets_CntLoad k : (forall x, rets Q (k x)) -> rets Q (CntLoad k)
| rets_CntStore c k : rets Q k -> rets Q (CntStore c k)
| rets_EGet key k : (forall x, rets Q (k x)) -> rets Q (EGet key k)
| rets_ESet key t k : rets Q k -> rets Q (ESet key t k)
| rets_EDel key k : (forall x, rets Q (k x)) -> rets Q (EDel key k)
| rets_Acq pos m k : rets Q k -> rets Q (Acq pos m k)
| rets_Rel pos m k : rets Q k -> rets Q (Rel pos m k).

Lemma rets_bind {A C} R Q (p : prog A) (f : A -> prog C) :
  rets R p -> (forall a, R a -> rets Q (f a)) -> rets Q (pbind p f).
Proof. intros H Hf. induction H; cbn; auto; constructor; auto. Qed.
Lemma rets_any {A} (p : prog A) : rets (fun _ => True) p.
Proof. induction p; constructor; auto. Qed.
Lemma rets_bind_any {A C} Q (p : prog A) (f : A -> prog C) :
  (forall a, rets Q (f a)) -> rets Q (pbind p f).
Proof. intros H. eapply rets_bind; [apply rets_any|auto]. Qed.

Section WithParams.
Context {P : Setup}.
Lemma rets_runs {A} (Q : A -> Prop) T (p : prog A) d out : rets Q p -> runs T d p out ->
  match out with Done a _ => Q a | _ => True end.
Proof. intros H R. induction R; inversion H; subst; auto; apply IHR; auto. Qed.
Lemma rets_with_lock {A} (Q : A -> Prop) m k (body : prog A) : rets Q body -> rets Q (with_lock m k body).
Proof.
  intros H. unfold with_lock. apply rets_bind_any. intros _. eapply rets_bind; [exact H|]. intros a Ha.
  apply rets_bind_any. intros _. constructor; auto.
Qed.
Lemma rets_with_mlock {A} (Q : A -> Prop) m k (body : prog A) : rets Q body -> rets Q (with_mlock m k body).
Proof.
  intros H. unfold with_mlock. apply rets_bind_any. intros _. eapply rets_bind; [exact H|]. intros a Ha.
  apply rets_bind_any. intros _. constructor; auto.
Qed.
End WithParams.

(** ** Sendable values *)
Lemma no_crlf_app a b : no_crlf a -> no_crlf b -> no_crlf (a ++ b).
Proof. intros. apply Forall_app; auto. Qed.
Definition no_crlfb (s : bytes) : bool := forallb (fun c => negb (code c =? 13)%N && negb (code c =? 10)%N) s.
Lemma no_crlfb_spec s : no_crlfb s = true -> no_crlf s.
Proof.
  unfold no_crlfb. rewrite forallb_forall. intros H. apply List.Forall_forall. intros c Hc.
  specialize (H c Hc). apply andb_true_iff in H as [H1 H2]. apply negb_true_iff in H1, H2.
  apply N.eqb_neq in H1, H2. auto.
Qed.
Lemma sd_rbulks l : Forall sendable (rbulks l).
Proof. apply List.Forall_map. apply List.Forall_forall. intros; constructor. Qed.
Lemma sd_bulkmap {A} (f : A -> val) l : Forall sendable (map (fun x => RBulk (f x)) l).
Proof. apply List.Forall_map. apply List.Forall_forall. intros; constructor. Qed.
Lemma sd_pairs (l : list bytes) (f : bytes -> val) :
  Forall sendable (concat (map (fun x => [RBulk (Some x); RBulk (f x)]) l)).
Proof. induction l; cbn; repeat constructor; auto. Qed.
Lemma sd_nilable l : Forall sendable l -> sendable (rarr_nilable l).
Proof. destruct l; cbn; constructor; auto. Qed.
Lemma sd_count_walk el nodes : forall pos d cnt ml, Forall sendable (count_walk el nodes pos d cnt ml).
Proof.
  induction nodes as [|x r IH]; intros; cbn [count_walk]; [constructor|].
  assert (Hh : Forall sendable (if veq el x then [RInt pos] else [])) by (destruct (veq el x); repeat constructor).
  destruct (_ && _); auto. destruct ml as [m|]; [destruct (m <=? 0); auto|]; apply Forall_app; auto.
Qed.
Lemma sd_first_walk el nodes : forall pos ml, sendable (first_walk el nodes pos ml).
Proof.
  induction nodes as [|x r IH]; intros; cbn [first_walk]; [constructor|].
  destruct (veq el x); [constructor|]. destruct ml as [m|]; auto. destruct (m <=? 0); auto. constructor.
Qed.
Lemma sd_lpos_run l el o : sendable (lpos_run l el o).
Proof.
  unfold lpos_run. assert (H0 : sendable Prog.rnil) by constructor.
  assert (forall p, sendable (let pos := p in if pos =? -1 then Prog.rnil else RInt pos)).
  { intros p. cbv zeta. destruct (_ =? _); auto. constructor. }
  assert (Hc : forall el nodes pos d c ml, sendable (match count_walk el nodes pos d c ml with [] => Prog.rnil | res => RArr (Some res) end)).
  { intros. pose proof (sd_count_walk el0 nodes pos d c ml). destruct (count_walk _ _ _ _ _ _); [auto|constructor; auto]. }
  repeat first [ assumption | apply H | apply Hc | apply sd_first_walk
   | match goal with |- sendable (match ?x with _ => _ end) => destruct x end
   | match goal with |- sendable (let '(_, _) := ?x in _) => destruct x end
   | progress cbv zeta ].
Qed.
Lemma sd_get_range v a b : sendable (get_range v a b).
Proof. unfold get_range. cbv zeta. destruct (_ || _); [constructor|]. destruct v; constructor. Qed.
Lemma sd_lpos_opts args : Forall (fun a => no_crlf (str a)) args -> forall o,
  match lpos_opts args o with inr e => sendable e | inl _ => True end.
Proof.
  assert (HH : forall n args, (length args <= n)%nat -> Forall (fun a => no_crlf (str a)) args -> forall o,
    match lpos_opts args o with inr e => sendable e | inl _ => True end).
  { induction n as [|n IH]; intros l Hl HF o; destruct l as [|a [|b r]]; cbn [lpos_opts]; auto; [cbn in Hl; lia|].
    inversion HF as [|? ? Ha HF']; subst. inversion HF' as [|? ? Hb HF'']; subst.
    assert (Hr : (length r <= n)%nat) by (cbn in Hl; lia).
    assert (He : sendable err_int) by (apply sd_err; apply no_crlfb_spec; reflexivity).
    repeat first [ apply IH; auto | assumption
      | match goal with |- match (if ?x then _ else _) with _ => _ end => destruct x end
      | match goal with |- match (match atoi ?x with _ => _ end) with _ => _ end => destruct (atoi x) end ].
    1-3: apply sd_err; apply no_crlfb_spec; reflexivity.
    apply sd_err. apply no_crlf_app; auto. apply no_crlfb_spec; reflexivity. }
  intros HF o. eapply HH; eauto.
Qed.
Lemma sd_set_opts args : Forall (fun a => no_crlf (str a)) args -> forall o,
  match set_opts args o with SP_err e => sendable e | _ => True end.
Proof.
  assert (HH : forall n args, (length args <= n)%nat -> Forall (fun a => no_crlf (str a)) args -> forall o,
    match set_opts args o with SP_err e => sendable e | _ => True end).
  { induction n as [|n IH]; intros l Hl HF o; destruct l as [|a r]; cbn [set_opts]; auto; [cbn in Hl; lia|].
    inversion HF as [|? ? Ha HF']; subst.
    assert (Hr : (length r <= n)%nat) by (cbn in Hl; lia).
    assert (He : sendable err_int) by (apply sd_err; apply no_crlfb_spec; reflexivity).
    repeat first [ apply IH; auto | assumption
      | match goal with |- match (if ?x then _ else _) with _ => _ end => destruct x end
      | match goal with |- match (match parse_int ?x with _ => _ end) with _ => _ end => destruct (parse_int x) as [? [?|]]; auto end
      | match goal with |- match (match ?r with [] => _ | _ => _ end) with _ => _ end =>
          destruct r as [|b r]; [exact I|inversion HF'; subst]; cbn in Hr end ].
    1-3: try (cbn in Hl; lia).
    apply sd_err. apply no_crlf_app; auto. apply no_crlfb_spec; reflexivity. }
  intros HF o. eapply HH; eauto.
Qed.

Ltac sd := solve
  [ assumption | exact I
  | constructor
  | apply sd_err; apply no_crlfb_spec; vm_compute; reflexivity
  | apply sd_str; apply no_crlfb_spec; vm_compute; reflexivity
  | apply sd_arr; first [assumption | apply sd_rbulks | apply sd_pairs | apply sd_bulkmap | apply List.Forall_nil
      | apply (sd_bulkmap (fun x => x)) ]
  | apply sd_nilable; apply sd_rbulks
  | apply sd_lpos_run | apply sd_get_range
  | repeat match goal with |- sendable (match ?x with _ => _ end) => destruct x end; constructor ].
Ltac rt_step :=
  match goal with
  | |- rets _ (Ret _) => apply rets_Ret; sd
  | |- rets _ Crash => apply rets_Crash
  | |- rets _ Hang => apply rets_Hang
  | |- rets _ (Range _ _) => apply rets_Range; intros ?
  | |- rets _ (DSeg _ _) => apply rets_DSeg; intros ?
  | |- rets _ (CntLoad _) => apply rets_CntLoad; intros ?
  | |- rets _ (with_lock _ _ _) => apply rets_with_lock
  | |- rets _ (with_mlock _ _ _) => apply rets_with_mlock
  | |- rets _ (let '(_, _) := (match ?x with _ => _ end) in _) => destruct x
  | |- rets _ (let '(_, _) := ?x in _) => destruct x
  | |- rets _ (match ?x with _ => _ end) => destruct x
  | H : context [rets] |- rets _ _ => apply H
  | |- rets sendable (@pbind rdata rdata _ _) => eapply (rets_bind sendable); [|intros ? ?]
  | |- rets _ (pbind _ _) => apply rets_bind_any; intros ?
  | |- forall _, _ => intros ?
  | |- rets _ _ => progress cbv zeta beta
  end.
Ltac rt_unf :=
  unfold hash_read, set_read, list_read, list_update, drop_if_empty, sdrop_if_empty, set_pop, counter_body,
    hrandfield_run, spop_run, srandmember_run, pop_run, hset_common, pop_list, push_list, pushx_list,
    setop_set, setopstore_set, dict_keys in *.
Ltac rt_cmd := repeat first [rt_step | progress rt_unf].
Tactic Notation "rtc" reference(f) := intros args; unfold f; rt_cmd.

Section Cmds.
Context {P : Setup}.
Notation good := (rets sendable).

Lemma rt_keys_loop p ks : rets (Forall sendable) (keys_loop p ks).
Proof.
  induction ks as [|k ks IH]; cbn [keys_loop]; [constructor; constructor|]. apply rets_bind_any. intros [|]; auto.
  destruct (glob p k) as [[|]| |]; auto; try constructor. eapply rets_bind; [exact IH|]. intros l Hl.
  constructor. constructor; auto. constructor.
Qed.
Lemma rt_mget_loop ks : forall acc, Forall sendable acc -> rets (Forall sendable) (mget_loop ks acc).
Proof.
  induction ks as [|k ks IH]; cbn [mget_loop]; intros acc Ha; [constructor; auto|]. apply rets_bind_any. intros [|]; auto.
  eapply (rets_bind sendable).
  - apply rets_with_lock. apply rets_bind_any. intros [[]|]; constructor; constructor.
  - intros x Hx. apply IH. apply Forall_app; auto.
Qed.
Lemma rt_ping_keys : forall cmd, good (ping_keys cmd).
Proof. rtc ping_keys. Qed.
Lemma rt_del_key : forall cmd, good (del_key cmd).
Proof. rtc del_key. Qed.
Lemma rt_exists_key : forall cmd, good (exists_key cmd).
Proof. rtc exists_key. Qed.
Lemma rt_persist_key : forall cmd, good (persist_key cmd).
Proof. rtc persist_key. Qed.
Lemma rt_ttl_key : forall cmd, good (ttl_key cmd).
Proof. rtc ttl_key. Qed.
Lemma rt_rename_key : forall cmd, good (rename_key cmd).
Proof. rtc rename_key. Qed.
Lemma rt_type_key : forall cmd, good (type_key cmd).
Proof. rtc type_key. Qed.
Lemma rt_get_string : forall cmd, good (get_string cmd).
Proof. rtc get_string. Qed.
Lemma rt_getrange_string : forall cmd, good (getrange_string cmd).
Proof. rtc getrange_string. Qed.
Lemma rt_setrange_string : forall cmd, good (setrange_string cmd).
Proof. rtc setrange_string. Qed.
Lemma rt_mset_string : forall cmd, good (mset_string cmd).
Proof. rtc mset_string. Qed.
Lemma rt_setex_string : forall cmd, good (setex_string cmd).
Proof. rtc setex_string. Qed.
Lemma rt_setnx_string : forall cmd, good (setnx_string cmd).
Proof. rtc setnx_string. Qed.
Lemma rt_strlen_string : forall cmd, good (strlen_string cmd).
Proof. rtc strlen_string. Qed.
Lemma rt_incr_string : forall cmd, good (incr_string cmd).
Proof. rtc incr_string. Qed.
Lemma rt_incrby_string : forall cmd, good (incrby_string cmd).
Proof. rtc incrby_string. Qed.
Lemma rt_decr_string : forall cmd, good (decr_string cmd).
Proof. rtc decr_string. Qed.
Lemma rt_decrby_string : forall cmd, good (decrby_string cmd).
Proof. rtc decrby_string. Qed.
Lemma rt_incrbyfloat_string : forall cmd, good (incrbyfloat_string cmd).
Proof. rtc incrbyfloat_string. Qed.
Lemma rt_append_string : forall cmd, good (append_string cmd).
Proof. rtc append_string. Qed.
Lemma rt_hdel_hash : forall cmd, good (hdel_hash cmd).
Proof. rtc hdel_hash. Qed.
Lemma rt_hexists_hash : forall cmd, good (hexists_hash cmd).
Proof. rtc hexists_hash. Qed.
Lemma rt_hget_hash : forall cmd, good (hget_hash cmd).
Proof. rtc hget_hash. Qed.
Lemma rt_hgetall_hash : forall cmd, good (hgetall_hash cmd).
Proof. rtc hgetall_hash. Qed.
Lemma rt_hincrby_hash : forall cmd, good (hincrby_hash cmd).
Proof. rtc hincrby_hash. Qed.
Lemma rt_hincrbyfloat_hash : forall cmd, good (hincrbyfloat_hash cmd).
Proof. rtc hincrbyfloat_hash. Qed.
Lemma rt_hkeys_hash : forall cmd, good (hkeys_hash cmd).
Proof. rtc hkeys_hash. Qed.
Lemma rt_hlen_hash : forall cmd, good (hlen_hash cmd).
Proof. rtc hlen_hash. Qed.
Lemma rt_hmget_hash : forall cmd, good (hmget_hash cmd).
Proof. rtc hmget_hash. Qed.
Lemma rt_hmset_hash : forall cmd, good (hmset_hash cmd).
Proof. rtc hmset_hash. Qed.
Lemma rt_hset_hash : forall cmd, good (hset_hash cmd).
Proof. rtc hset_hash. Qed.
Lemma rt_hsetnx_hash : forall cmd, good (hsetnx_hash cmd).
Proof. rtc hsetnx_hash. Qed.
Lemma rt_hvals_hash : forall cmd, good (hvals_hash cmd).
Proof. rtc hvals_hash. Qed.
Lemma rt_hstrlen_hash : forall cmd, good (hstrlen_hash cmd).
Proof. rtc hstrlen_hash. Qed.
Lemma rt_hrandfield_hash : forall cmd, good (hrandfield_hash cmd).
Proof. rtc hrandfield_hash. Qed.
Lemma rt_lindex_list : forall cmd, good (lindex_list cmd).
Proof. rtc lindex_list. Qed.
Lemma rt_linsert_list : forall cmd, good (linsert_list cmd).
Proof. rtc linsert_list. Qed.
Lemma rt_llen_list : forall cmd, good (llen_list cmd).
Proof. rtc llen_list. Qed.
Lemma rt_lmove_list : forall cmd, good (lmove_list cmd).
Proof. rtc lmove_list. Qed.
Lemma rt_lpop_list : forall cmd, good (lpop_list cmd).
Proof. rtc lpop_list. Qed.
Lemma rt_lpush_list : forall cmd, good (lpush_list cmd).
Proof. rtc lpush_list. Qed.
Lemma rt_lpushx_list : forall cmd, good (lpushx_list cmd).
Proof. rtc lpushx_list. Qed.
Lemma rt_lrange_list : forall cmd, good (lrange_list cmd).
Proof. rtc lrange_list. Qed.
Lemma rt_lrem_list : forall cmd, good (lrem_list cmd).
Proof. rtc lrem_list. Qed.
Lemma rt_lset_list : forall cmd, good (lset_list cmd).
Proof. rtc lset_list. Qed.
Lemma rt_ltrim_list : forall cmd, good (ltrim_list cmd).
Proof. rtc ltrim_list. Qed.
Lemma rt_rpop_list : forall cmd, good (rpop_list cmd).
Proof. rtc rpop_list. Qed.
Lemma rt_rpush_list : forall cmd, good (rpush_list cmd).
Proof. rtc rpush_list. Qed.
Lemma rt_rpushx_list : forall cmd, good (rpushx_list cmd).
Proof. rtc rpushx_list. Qed.
Lemma rt_sadd_set : forall cmd, good (sadd_set cmd).
Proof. rtc sadd_set. Qed.
Lemma rt_scard_set : forall cmd, good (scard_set cmd).
Proof. rtc scard_set. Qed.
Lemma rt_sdiff_set : forall cmd, good (sdiff_set cmd).
Proof. rtc sdiff_set. Qed.
Lemma rt_sdiffstore_set : forall cmd, good (sdiffstore_set cmd).
Proof. rtc sdiffstore_set. Qed.
Lemma rt_sinter_set : forall cmd, good (sinter_set cmd).
Proof. rtc sinter_set. Qed.
Lemma rt_sinterstore_set : forall cmd, good (sinterstore_set cmd).
Proof. rtc sinterstore_set. Qed.
Lemma rt_sismember_set : forall cmd, good (sismember_set cmd).
Proof. rtc sismember_set. Qed.
Lemma rt_smembers_set : forall cmd, good (smembers_set cmd).
Proof. rtc smembers_set. Qed.
Lemma rt_smove_set : forall cmd, good (smove_set cmd).
Proof. rtc smove_set. Qed.
Lemma rt_spop_set : forall cmd, good (spop_set cmd).
Proof. rtc spop_set. Qed.
Lemma rt_srandmember_set : forall cmd, good (srandmember_set cmd).
Proof. rtc srandmember_set. Qed.
Lemma rt_srem_set : forall cmd, good (srem_set cmd).
Proof. rtc srem_set. Qed.
Lemma rt_sunion_set : forall cmd, good (sunion_set cmd).
Proof. rtc sunion_set. Qed.
Lemma rt_sunionstore_set : forall cmd, good (sunionstore_set cmd).
Proof. rtc sunionstore_set. Qed.
Lemma rt_keys_key : forall cmd, good (keys_key cmd).
Proof.
  intros cmd. unfold keys_key. destruct cmd as [|? [|? []]]; try (constructor; sd). apply rets_bind_any. intros ks.
  eapply rets_bind; [apply rt_keys_loop|]. intros l Hl. constructor. constructor. auto.
Qed.
Lemma rt_mget_string : forall cmd, good (mget_string cmd).
Proof.
  intros cmd. unfold mget_string. destruct cmd as [|? []]; try (constructor; sd).
  eapply rets_bind; [apply rt_mget_loop; constructor|]. intros l' Hl. constructor. constructor. auto.
Qed.
Definition clean (cmd : command) : Prop := Forall (fun a => no_crlf (str a)) cmd.
Lemma rt_expire_key : forall cmd, clean cmd -> good (expire_key cmd).
Proof.
  intros cmd H. unfold expire_key. assert (Hn : no_crlf []) by constructor.
  assert (HH : forall k n o raw, no_crlf raw -> good (expire_run k n o raw)).
  { intros k n o raw Hr. assert (sendable (RErr (B "Unsupported option " ++ raw))).
    { apply sd_err. apply no_crlf_app; auto. apply no_crlfb_spec; reflexivity. }
    unfold expire_run. rt_cmd. }
  destruct cmd as [|? [|? [|? [|o []]]]]; try (constructor; sd); apply HH; auto.
  do 3 (inversion H as [|? ? _ H']; subst; clear H; rename H' into H). inversion H; auto.
Qed.
Lemma rt_set_string : forall cmd, clean cmd -> good (set_string cmd).
Proof.
  intros cmd H. unfold set_string. destruct cmd as [|? [|? [|? args]]]; try (constructor; sd).
  do 3 (inversion H as [|? ? _ H']; subst; clear H; rename H' into H).
  pose proof (sd_set_opts args H no_opts) as Ho. apply rets_bind_any. intros ?.
  assert (Hok : sendable ok) by (apply sd_str; apply no_crlfb_spec; reflexivity).
  assert (Hnil : sendable Prog.rnil) by constructor.
  destruct (set_opts args no_opts) as [o|e|]; rt_cmd;
    apply rets_Ret; repeat match goal with |- sendable (if ?x then _ else _) => destruct x end; auto; constructor.
Qed.
Lemma rt_lpos_list : forall cmd, clean cmd -> good (lpos_list cmd).
Proof.
  intros cmd H. unfold lpos_list. destruct cmd as [|? [|? [|? args]]]; try (constructor; sd).
  do 3 (inversion H as [|? ? _ H']; subst; clear H; rename H' into H).
  pose proof (sd_lpos_opts args H (mkLpos None None None)) as Ho.
  destruct (Nat.even _); [constructor; sd|]. apply rets_bind_any. intros [|]; [constructor; sd|].
  destruct (lpos_opts _ _); rt_cmd.
Qed.
(** Only a command with an unknown name, SET, EXPIRE and LPOS echo their arguments. *)
Definition echoes (cmd : command) : Prop :=
  match cmd with
  | [] => False
  | n :: _ => lookup_cmd (to_lower (str n)) = None \/
      to_lower (str n) = B "set" \/ to_lower (str n) = B "expire" \/ to_lower (str n) = B "lpos"
  end.
Theorem replies_sendable cmd : (echoes cmd -> clean cmd) -> good (exec_in_db cmd).
Proof.
  unfold exec_in_db. destruct cmd as [|n args]; [constructor|]. intros H.
  destruct (lookup_cmd (to_lower (str n))) as [ex|] eqn:E.
  - apply assoc_in in E. unfold cmd_table in E. cbn [In] in E.
    repeat (destruct E as [E|E]; [injection E as E <-|]); [..|destruct E].
    + apply rt_ping_keys.
    + apply rt_del_key.
    + apply rt_exists_key.
    + apply rt_keys_key.
    + apply rt_expire_key. apply H. cbn. rewrite <- E. auto.
    + apply rt_persist_key.
    + apply rt_ttl_key.
    + apply rt_rename_key.
    + apply rt_type_key.
    + apply rt_set_string. apply H. cbn. rewrite <- E. auto.
    + apply rt_get_string.
    + apply rt_getrange_string.
    + apply rt_setrange_string.
    + apply rt_mget_string.
    + apply rt_mset_string.
    + apply rt_setex_string.
    + apply rt_setnx_string.
    + apply rt_strlen_string.
    + apply rt_incr_string.
    + apply rt_incrby_string.
    + apply rt_decr_string.
    + apply rt_decrby_string.
    + apply rt_incrbyfloat_string.
    + apply rt_append_string.
    + apply rt_hdel_hash.
    + apply rt_hexists_hash.
    + apply rt_hget_hash.
    + apply rt_hgetall_hash.
    + apply rt_hincrby_hash.
    + apply rt_hincrbyfloat_hash.
    + apply rt_hkeys_hash.
    + apply rt_hlen_hash.
    + apply rt_hmget_hash.
    + apply rt_hmset_hash.
    + apply rt_hset_hash.
    + apply rt_hsetnx_hash.
    + apply rt_hvals_hash.
    + apply rt_hstrlen_hash.
    + apply rt_hrandfield_hash.
    + apply rt_lindex_list.
    + apply rt_linsert_list.
    + apply rt_llen_list.
    + apply rt_lmove_list.
    + apply rt_lpop_list.
    + apply rt_lpos_list. apply H. cbn. rewrite <- E. auto.
    + apply rt_lpush_list.
    + apply rt_lpushx_list.
    + apply rt_lrange_list.
    + apply rt_lrem_list.
    + apply rt_lset_list.
    + apply rt_ltrim_list.
    + apply rt_rpop_list.
    + apply rt_rpush_list.
    + apply rt_rpushx_list.
    + apply rt_sadd_set.
    + apply rt_scard_set.
    + apply rt_sdiff_set.
    + apply rt_sdiffstore_set.
    + apply rt_sinter_set.
    + apply rt_sinterstore_set.
    + apply rt_sismember_set.
    + apply rt_smembers_set.
    + apply rt_smove_set.
    + apply rt_spop_set.
    + apply rt_srandmember_set.
    + apply rt_srem_set.
    + apply rt_sunion_set.
    + apply rt_sunionstore_set.
  - constructor. apply sd_err. apply no_crlf_app; [apply no_crlfb_spec; reflexivity|].
    apply no_crlf_app; [|apply no_crlfb_spec; reflexivity].
    assert (Hc : clean (n :: args)) by (apply H; left; auto). inversion Hc; auto.
Qed.
End Cmds.
