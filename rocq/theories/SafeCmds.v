(** The panic_free commands do not panic. *)
From Verif Require Export SpecPanic Safe ListProofs StringsProofs.

Section WithParams.
Context {P : Setup}.
Lemma safe_acq_all {A} c h L K l (p : prog A) : safe c h (rev l ++ L) K p -> safe c h L K (acq_all MW l ;;; p).
Proof. revert L. induction l as [|q l IH]; intros L H; cbn; auto. constructor. apply IH. cbn in H. rewrite <- app_assoc in H. exact H. Qed.
Lemma safe_mlock {A} c h K ks (body : prog A) : (forall L, (forall k, k ∈ ks -> lockpos k ∈ L) -> safe c h L K body) -> safe c h [] K (with_mlock MW ks body).
Proof.
  intros H. unfold with_mlock, mlock. apply safe_acq_all. apply safe_bind.
  - apply H. intros k Hk. apply elem_of_app. left. apply elem_of_list_In, in_rev. rewrite rev_involutive. apply elem_of_list_In. apply sorted_locks_elem. auto.
  - intros L K' a. apply safe_bind_calm; [apply cm_rel|]. intros. constructor.
Qed.
(** After an expiry check nothing is held. *)
Lemma safe_purge {A} c h key (f : bool -> prog A) : (forall e, safe c h [] ∅ (f e)) -> safe c h [] ∅ (pbind (delete_expired_key key) f).
Proof.
  intros H. unfold delete_expired_key, check_expire, with_lock, lock, unlock, dict_del, delete_expire. cbn [pbind]. constructor. intros [t|]; cbn [pbind]; [|apply H].
  constructor. intros n. destruct (t <? n); cbn [pbind]; [|apply H]. constructor. constructor. intros [|]; cbn [pbind].
  - constructor. intros x. constructor. constructor. intros b. constructor. apply H.
  - constructor. intros x. constructor. apply H.
Qed.
Lemma safe_smove : forall cmd, safe false false [] ∅ (smove_set cmd).
Proof.
  intros cmd. unfold smove_set. destruct cmd as [|? [|a [|b [|m []]]]]; try solve [constructor]. apply safe_purge. intros [|]; [constructor|]. apply safe_purge. intros [|]; [constructor|].
  apply safe_mlock. intros L HL. cbn [dict_get pbind]. constructor. intros sv Hsv.
  assert (Hs : lockpos (str a) ∈ L) by (apply HL; left). assert (Hd : lockpos (str b) ∈ L) by (apply HL; right; left).
  rewrite decide_True by auto. destruct sv as [[?|?|?|s]|]; try solve [constructor]. cbn [dict_get pbind]. constructor. intros dv Hdv. rewrite decide_True by auto.
  assert (Hdv' : str b = str a -> dv = Some (VSet s)) by (intros E; rewrite E in Hdv; apply Hdv; rewrite lookup_insert; reflexivity).
  assert (Hlast : forall (r : rdata) L K, safe (A := rdata) false false L K (s' <- dict_get (str a) ;; match s' with Some (VSet s') => sdrop_if_empty (str a) s' | _ => Ret tt end ;;; Ret r)).
  { intros r L' K'. apply calm_safe. cm_cmd. }
  destruct dv as [[?|?|?|ds]|]; try (cbn [pbind]; apply Hlast). destruct (bool_decide _); cbn [pbind]; [|apply Hlast].
  cbn [obj_put pbind dict_get]. constructor. constructor. intros d Hd2. rewrite decide_True by auto.
  assert (Hset : exists s', d = Some (VSet s')).
  { destruct (decide (str b = str a)) as [E|E].
    - rewrite E in Hd2. eexists. apply Hd2. rewrite lookup_alter, lookup_insert. reflexivity.
    - eexists. apply Hd2. rewrite lookup_alter_ne by auto. rewrite lookup_insert. reflexivity. }
  destruct Hset as [s' ->]. cbn [obj_put pbind]. constructor. apply Hlast.
Qed.
Lemma set_opts_dangling args : forall o, set_opts args o = SP_crash -> exists pre a, args = pre ++ [a] /\ (to_lower (str a) = B "ex" \/ to_lower (str a) = B "px").
Proof.
  assert (HH : forall n args, (length args <= n)%nat -> forall o, set_opts args o = SP_crash -> exists pre a, args = pre ++ [a] /\ (to_lower (str a) = B "ex" \/ to_lower (str a) = B "px")).
  { induction n as [|n IH]; intros l Hl o; destruct l as [|a r]; cbn [set_opts]; try discriminate; [cbn in Hl; lia|].
    assert (Hr : forall o', set_opts r o' = SP_crash -> exists pre x, a :: r = pre ++ [x] /\ (to_lower (str x) = B "ex" \/ to_lower (str x) = B "px")).
    { intros o' H. destruct (IH r ltac:(cbn in Hl; lia) o' H) as (pre & x & -> & Hx). exists (a :: pre), x. auto. }
    assert (Hr2 : forall b r' o', r = b :: r' -> set_opts r' o' = SP_crash -> exists pre x, a :: r = pre ++ [x] /\ (to_lower (str x) = B "ex" \/ to_lower (str x) = B "px")).
    { intros b r' o' -> H. destruct (IH r' ltac:(cbn in Hl; lia) o' H) as (pre & x & -> & Hx). exists (a :: b :: pre), x. auto. }
    destruct (beq _ (B "nx")); [apply Hr|]. destruct (beq _ (B "xx")); [apply Hr|]. destruct (beq _ (B "get")); [apply Hr|].
    destruct (beq _ (B "ex")) eqn:E1.
    { apply bool_decide_eq_true in E1. destruct r as [|b r']; [intros _; exists [], a; auto|apply (Hr2 b r'); auto]. }
    destruct (beq _ (B "px")) eqn:E2.
    { apply bool_decide_eq_true in E2. destruct r as [|b r']; [intros _; exists [], a; auto|]. destruct (parse_int (str b)) as [v [|]]; [discriminate|]. apply (Hr2 b r'); auto. }
    destruct (_ || _); [destruct (parse_int _) as [? [|]]; discriminate|]. destruct (beq _ (B "keepttl")); [apply Hr|discriminate]. }
  intros o. eapply HH; eauto.
Qed.
Lemma cm_set cmd : (forall args a, cmd = args ++ [a] -> (3 <= length args)%nat -> to_lower (str a) <> B "ex" /\ to_lower (str a) <> B "px") -> calm false false (set_string cmd).
Proof.
  intros H. unfold set_string. destruct cmd as [|n [|k [|v args]]]; try solve [constructor]. cbv zeta. apply calm_bind; [apply cm_purge|]. intros _.
  destruct (set_opts args no_opts) as [o|e|] eqn:E; [|constructor|].
  - clear H E. cm_cmd.
  - exfalso. apply set_opts_dangling in E as (pre & a & -> & Ha). destruct (H (n :: k :: v :: pre) a) as [H1 H2]; [reflexivity|cbn; lia|]. tauto.
Qed.
Lemma cm_setrange cmd : (forall a o, cmd !! 2%nat = Some a -> atoi (str a) = Some o -> o <= 2 ^ 48) -> calm false false (setrange_string cmd).
Proof.
  intros H. unfold setrange_string. destruct cmd as [|? [|k [|n [|v []]]]]; try solve [constructor]. cbv zeta. apply calm_bind; [apply cm_purge|]. intros _.
  destruct (atoi (str n)) as [o|] eqn:E; [|constructor]. specialize (H n o eq_refl E). destruct (Z.ltb_spec o 0); [constructor|].
  assert (Hs : forall old, set_range old o (str v) <> None).
  { intros old. unfold set_range. cbv zeta. destruct (Z.ltb_spec (zlen (str old)) o); [|discriminate]. unfold make_ok.
    assert (0 <= zlen (str old)) by (unfold zlen; lia).
    destruct (Z.leb_spec 0 (o - zlen (str old))); [|lia]. destruct (Z.leb_spec ((o - zlen (str old)) * 1) (2 ^ 48)); [discriminate|lia]. }
  apply cm_lock. apply calm_bind; [apply cm_dict_get|].
  assert (Hg : forall old, calm false false (match set_range old o (str v) with None => Crash | Some nv => dict_set (str k) (VStr nv) ;;; Ret (RInt (zlen (str nv))) end)).
  { intros old. specialize (Hs old). destruct (set_range old o (str v)); [|congruence]. clear. cm_cmd. }
  intros [[]|]; try apply Hg; constructor.
Qed.
Lemma cm_lindex cmd : (forall i, cmd !! 2%nat = Some i -> atoi (str i) <> Some min_int) -> calm false false (lindex_list cmd).
Proof.
  intros H. unfold lindex_list. destruct cmd as [|? [|k [|i []]]]; try solve [constructor]. cbv zeta. apply calm_bind; [apply cm_purge|]. intros [|]; [constructor|].
  destruct (atoi (str i)) as [ix|] eqn:E; [|constructor]. specialize (H i eq_refl). rewrite E in H. unfold list_read. apply cm_lock. apply calm_bind; [apply cm_dict_get|].
  intros [[| |l|]|]; try solve [constructor]. pose proof (list_index_spec l ix ltac:(congruence) (atoi_range _ _ E)) as Hl.
  destruct (list_index l ix) as [|m|]; [constructor| |contradiction]. destruct (l !! m) as [x|] eqn:Em; [constructor|]. exfalso. destruct Hl as (? & ? & _). congruence.
Qed.
Lemma cm_lset cmd : (forall i, cmd !! 2%nat = Some i -> atoi (str i) <> Some min_int) -> calm false false (lset_list cmd).
Proof.
  intros H. unfold lset_list. destruct cmd as [|? [|k [|i [|v []]]]]; try solve [constructor]. cbv zeta. apply calm_bind; [apply cm_purge|]. intros [|]; [constructor|].
  destruct (atoi (str i)) as [ix|] eqn:E; [|constructor]. specialize (H i eq_refl). rewrite E in H. unfold list_update. apply cm_lock. apply calm_bind; [apply cm_dict_get|].
  intros [[| |l|]|]; try solve [constructor]. pose proof (list_index_spec l ix ltac:(congruence) (atoi_range _ _ E)) as Hl.
  destruct (list_index l ix) as [|m|]; [constructor| |contradiction]. clear. cm_cmd.
Qed.
(** ** All commands *)
Ltac no_panic Hc := first [apply (Hc "keys"%string); [unfold panicking; cbn [In]; tauto|reflexivity]|apply (Hc "set"%string); [unfold panicking; cbn [In]; tauto|reflexivity]|apply (Hc "setrange"%string); [unfold panicking; cbn [In]; tauto|reflexivity]|apply (Hc "hrandfield"%string); [unfold panicking; cbn [In]; tauto|reflexivity]|apply (Hc "lindex"%string); [unfold panicking; cbn [In]; tauto|reflexivity]|apply (Hc "lset"%string); [unfold panicking; cbn [In]; tauto|reflexivity]|apply (Hc "lmove"%string); [unfold panicking; cbn [In]; tauto|reflexivity]|apply (Hc "ltrim"%string); [unfold panicking; cbn [In]; tauto|reflexivity]|apply (Hc "srandmember"%string); [unfold panicking; cbn [In]; tauto|reflexivity]|apply (Hc "sinter"%string); [unfold panicking; cbn [In]; tauto|reflexivity]|apply (Hc "sdiff"%string); [unfold panicking; cbn [In]; tauto|reflexivity]|apply (Hc "sunion"%string); [unfold panicking; cbn [In]; tauto|reflexivity]].
Lemma named_eq n s : B s = to_lower (str n) -> named n s.
Proof. intros H. symmetry. exact H. Qed.
Lemma exec_safe cmd c h : (c = false -> panic_free cmd) -> (h = false -> ~ may_loop cmd) -> safe c h [] ∅ (exec_in_db cmd).
Proof.
  intros Hc Hh. unfold exec_in_db. destruct cmd as [|n args]; [constructor; destruct c; [reflexivity|destruct (Hc eq_refl)]|].
  destruct (lookup_cmd (to_lower (str n))) as [ex|] eqn:E; [|constructor].
  assert (Hff : forall p : prog rdata, calm false false p -> safe c h [] ∅ p).
  { intros p Hp. apply calm_safe. apply (cm_loose false false); [discriminate..|exact Hp]. }
  assert (Htf : forall p : prog rdata, calm true false p -> (c = false -> False) -> safe c h [] ∅ p).
  { intros p Hp Hd. destruct c; [|destruct Hd; reflexivity]. apply calm_safe. apply (cm_loose true false); [auto|discriminate|exact Hp]. }
  assert (Htf' : forall p : prog rdata, calm true false p -> (c = false -> calm false false p) -> safe c h [] ∅ p).
  { intros p Hp Hd. destruct c; [|auto]. apply calm_safe. apply (cm_loose true false); [auto|discriminate|exact Hp]. }
  unfold panic_free in Hc. unfold may_loop in Hh. unfold named in *.
  apply assoc_in in E. unfold cmd_table in E. cbn [In] in E.
  repeat (destruct E as [E|E]; [injection E as E <-; rewrite <- E in Hc, Hh|]); [..|destruct E];
  first
    [ apply Hff; first [apply cm_ping|apply cm_del|apply cm_exists|apply cm_expire|apply cm_persist|apply cm_ttl|apply cm_rename|apply cm_type|apply cm_get|apply cm_getrange|apply cm_mget|apply cm_mset
        |apply cm_setex|apply cm_setnx|apply cm_strlen|apply cm_incr|apply cm_incrby|apply cm_decr|apply cm_decrby|apply cm_incrbyfloat|apply cm_append
        |apply cm_hdel|apply cm_hexists|apply cm_hget|apply cm_hgetall|apply cm_hincrby|apply cm_hincrbyfloat|apply cm_hkeys|apply cm_hlen|apply cm_hmget|apply cm_hmset|apply cm_hset|apply cm_hsetnx|apply cm_hvals|apply cm_hstrlen
        |apply cm_llen|apply cm_lpop|apply cm_rpop|apply cm_lpos|apply cm_lpush|apply cm_rpush|apply cm_lpushx|apply cm_rpushx|apply cm_lrange|apply cm_lrem
        |apply cm_sadd|apply cm_scard|apply cm_sismember|apply cm_smembers|apply cm_sdiffstore|apply cm_sinterstore|apply cm_sunionstore|apply cm_srem|apply cm_spop]; fail
    | apply Htf; [first [apply cm_keys|apply cm_hrandfield|apply cm_srandmember|apply cm_ltrim|apply cm_lmove|apply cm_setop]|];
      intros Ec; specialize (Hc Ec); destruct Hc as [Hc|[[Hc _]|[[[Hc|Hc] _]|[Hc _]]]]; try discriminate Hc;
      no_panic Hc
    | idtac ].
  - apply Htf'; [apply cm_set_loops|]. intros Ec. specialize (Hc Ec). apply cm_set. destruct Hc as [Hc|[[_ Hc]|[[[Hc|Hc] _]|[Hc _]]]]; try discriminate Hc; [|exact Hc].
    exfalso. no_panic Hc.
  - apply Htf'; [apply cm_setrange_loops|]. intros Ec. specialize (Hc Ec). apply cm_setrange. destruct Hc as [Hc|[[Hc _]|[[[Hc|Hc] _]|[_ Hc]]]]; try discriminate Hc; [|exact Hc].
    exfalso. no_panic Hc.
  - apply Htf'; [apply cm_lindex_loops|]. intros Ec. specialize (Hc Ec). apply cm_lindex. destruct Hc as [Hc|[[Hc _]|[[_ Hc]|[Hc _]]]]; try discriminate Hc; [|exact Hc].
    exfalso. no_panic Hc.
  - destruct h; [|destruct Hh; reflexivity]. apply calm_safe. apply (cm_loose false true); [discriminate|auto|apply cm_linsert].
  - apply Htf'; [apply cm_lset_loops|]. intros Ec. specialize (Hc Ec). apply cm_lset. destruct Hc as [Hc|[[Hc _]|[[_ Hc]|[Hc _]]]]; try discriminate Hc; [|exact Hc].
    exfalso. no_panic Hc.
  - apply (safe_loose false false); [discriminate..|apply safe_smove].
Qed.
(** ** Clients *)
(** Knowing more does not harm. *)
Definition scoped (L : list N) (K : gmap bytes (option value)) : Prop := forall key y, K !! key = Some y -> lockpos key ∈ L.
Definition less (K K' : gmap bytes (option value)) : Prop := forall key y, K !! key = Some y -> K' !! key = Some y.
Lemma scoped_set L K key (x : option value) : scoped L K -> scoped L (if decide (lockpos key ∈ L) then <[key := x]> K else K).
Proof. intros H. destruct (decide _) as [Hi|Hi]; [|exact H]. intros k y Hy. destruct (decide (key = k)) as [<-|Hn]; [exact Hi|]. rewrite lookup_insert_ne in Hy by auto. eauto. Qed.
Lemma less_set (L L' : list N) K K' key (x : option value) : scoped L K -> (forall q, q ∈ L -> q ∈ L') -> less K K' ->
  less (if decide (lockpos key ∈ L) then <[key := x]> K else K) (if decide (lockpos key ∈ L') then <[key := x]> K' else K').
Proof.
  intros Hs HL HK k y Hy. destruct (decide (key = k)) as [<-|Hn].
  - destruct (decide (lockpos key ∈ L)) as [Hi|Hi]; [|destruct Hi; eapply Hs; eauto]. rewrite lookup_insert in Hy. rewrite decide_True by auto. rewrite lookup_insert. exact Hy.
  - assert (Hy' : K !! k = Some y) by (destruct (decide (lockpos key ∈ L)); [rewrite lookup_insert_ne in Hy by auto|]; exact Hy).
    apply HK in Hy'. destruct (decide (lockpos key ∈ L')); [rewrite lookup_insert_ne by auto|]; exact Hy'.
Qed.
Lemma safe_mono {A} c h L K (p : prog A) : safe c h L K p -> scoped L K -> forall L' K', (forall q, q ∈ L -> q ∈ L') -> less K K' -> safe c h L' K' p.
Proof.
  induction 1 as [| | | | |L K key k H IH|L K key v k H IH|L K key v k H IH|L K key k H IH| | | | | | |L K pos m k H IH|]; intros Hs L' K' HL HK; constructor; eauto.
  - intros x Hx. eapply IH; [|apply scoped_set; exact Hs|exact HL|apply less_set; auto]. intros y Hy. apply Hx. auto.
  - intros b. eapply IH; [apply scoped_set; exact Hs|exact HL|apply less_set; auto].
  - eapply IH; [|exact HL|].
    + intros q y Hy. destruct (decide (key = q)) as [<-|Hn]; [|rewrite lookup_alter_ne in Hy by auto; eauto]. rewrite lookup_alter in Hy. destruct (K !! key) eqn:E; [|discriminate]. eauto.
    + intros q y Hy. destruct (decide (key = q)) as [<-|Hn]; [|rewrite lookup_alter_ne in * by auto; auto]. rewrite lookup_alter in *. destruct (K !! key) eqn:E; [|discriminate]. rewrite (HK _ _ E). exact Hy.
  - intros b. eapply IH; [apply scoped_set; exact Hs|exact HL|apply less_set; auto].
  - eapply IH; [|intros q Hq|exact HK].
    + intros q y Hy. apply Hs in Hy. destruct m; [exact Hy|right; exact Hy].
    + destruct m; [auto|]. apply elem_of_cons in Hq as [->|Hq]; [left|right; auto].
Qed.
Lemma safe_any {A} c h (p : prog A) L K : safe c h [] ∅ p -> safe c h L K p.
Proof.
  intros H. eapply safe_mono; [exact H|..].
  - intros k y Hy. rewrite lookup_empty in Hy. discriminate.
  - intros q Hq. inversion Hq.
  - intros k y Hy. rewrite lookup_empty in Hy. discriminate.
Qed.
Lemma client_from_safe cmds c h : (forall cmd, cmd ∈ cmds -> (c = false -> panic_free cmd) /\ (h = false -> ~ may_loop cmd)) -> forall acc, safe c h [] ∅ (client_from acc cmds).
Proof.
  induction cmds as [|cmd r IH]; intros H acc; cbn [client_from]; [constructor|]. destruct (H cmd ltac:(left)) as [H1 H2]. apply safe_bind; [apply exec_safe; auto|].
  intros L K x. apply safe_any. apply IH. intros c' Hc. apply H. right. exact Hc.
Qed.
Lemma clients_safe T d cs c fl : rtc (cstep T) (clients d cs) c ->
  (forall i cmds cmd, cs !! i = Some cmds -> cmd ∈ cmds -> ((fl i).1 = false -> panic_free cmd) /\ ((fl i).2 = false -> ~ may_loop cmd)) -> all_safe fl c.
Proof.
  intros R H. assert (H0 : all_safe fl (clients d cs)).
  { unfold clients. apply all_safe_start.
    - apply Forall_fmap, Forall_forall. intros cmds _. apply wf_client; auto.
    - intros i p Hp. rewrite list_lookup_fmap in Hp. destruct (cs !! i) as [cmds|] eqn:E; [|discriminate]. injection Hp as <-. apply client_from_safe. eauto. }
  clear H. induction R; auto. apply IHR. eapply all_safe_step; eauto.
Qed.
Lemma clients_no_panic T d cs c i cmds t : rtc (cstep T) (clients d cs) c -> cs !! i = Some cmds -> (forall cmd, cmd ∈ cmds -> panic_free cmd) -> ths c !! i = Some t -> tcode t <> Crash.
Proof.
  intros R Hi H Ht E. assert (HS : all_safe (fun j => (negb (j =? i)%nat, true)) c).
  { eapply clients_safe; [exact R|]. intros j cmds' cmd Hj Hc. cbn. split; [|discriminate]. intros F. apply negb_false_iff, Nat.eqb_eq in F as ->. apply H. congruence. }
  destruct (all_safe_at _ _ _ _ HS Ht) as [H1 _]. specialize (H1 E). cbn in H1. rewrite Nat.eqb_refl in H1. discriminate.
Qed.
Lemma clients_no_loop T d cs c i cmds t : rtc (cstep T) (clients d cs) c -> cs !! i = Some cmds -> (forall cmd, cmd ∈ cmds -> ~ may_loop cmd) -> ths c !! i = Some t -> tcode t <> Hang.
Proof.
  intros R Hi H Ht E. assert (HS : all_safe (fun j => (true, negb (j =? i)%nat)) c).
  { eapply clients_safe; [exact R|]. intros j cmds' cmd Hj Hc. cbn. split; [discriminate|]. intros F. apply negb_false_iff, Nat.eqb_eq in F as ->. apply H. congruence. }
  destruct (all_safe_at _ _ _ _ HS Ht) as [_ H1]. specialize (H1 E). cbn in H1. rewrite Nat.eqb_refl in H1. discriminate.
Qed.
(** One client alone. *)
Lemma safe_runs {A} T d (p : prog A) out : runs T d p out -> forall c h L K, safe c h L K p -> scoped L K -> (forall key y, K !! key = Some y -> dict d !! key = y) ->
  (forall d', out = Crashes d' -> c = true) /\ (forall d', out = Hangs d' -> h = true).
Proof.
  induction 1; intros c0 h L K HS Hs HK; inversion HS as [| | | | |? ? ? ? HS'|? ? ? ? ? HS'|? ? ? ? ? HS'|? ? ? ? HS'| | | | | | |? ? ? ? ? HS'|]; subst; try (split; congruence); eauto.
  - eapply IHruns; [apply HS'; intros y Hy; apply HK; exact Hy|apply scoped_set; exact Hs|]. intros q y Hy. destruct (decide (lockpos key ∈ L)); [|auto].
    destruct (decide (key = q)) as [<-|Hn]; [rewrite lookup_insert in Hy; congruence|rewrite lookup_insert_ne in Hy by auto; auto].
  - eapply IHruns; [apply HS'|apply scoped_set; exact Hs|]. cbn. intros q y Hy. destruct (decide (key = q)) as [<-|Hn].
    + destruct (decide (lockpos key ∈ L)) as [|Hi]; [|destruct Hi; eapply Hs; eauto]. rewrite lookup_insert in Hy. rewrite lookup_insert. congruence.
    + rewrite lookup_insert_ne by auto. apply HK. destruct (decide (lockpos key ∈ L)); [rewrite lookup_insert_ne in Hy by auto|]; exact Hy.
  - eapply IHruns; [exact HS'|..]; cbn.
    + intros q y Hy. destruct (decide (key = q)) as [<-|Hn]; [|rewrite lookup_alter_ne in Hy by auto; eauto]. rewrite lookup_alter in Hy. destruct (K !! key) eqn:E; [|discriminate]. eauto.
    + intros q y Hy. destruct (decide (key = q)) as [<-|Hn]; [|rewrite lookup_alter_ne in Hy by auto; rewrite lookup_alter_ne by auto; auto]. rewrite lookup_alter in Hy. rewrite lookup_alter. destruct (K !! key) as [z|] eqn:E; [|discriminate]. rewrite (HK _ _ E). cbn in Hy. injection Hy as <-. destruct z; reflexivity.
  - eapply IHruns; [apply HS'|apply scoped_set; exact Hs|]. cbn. intros q y Hy. destruct (decide (key = q)) as [<-|Hn].
    + destruct (decide (lockpos key ∈ L)) as [|Hi]; [|destruct Hi; eapply Hs; eauto]. rewrite lookup_insert in Hy. injection Hy as <-. apply lookup_delete.
    + rewrite lookup_delete_ne by auto. apply HK. destruct (decide (lockpos key ∈ L)); [rewrite lookup_insert_ne in Hy by auto|]; exact Hy.
  - eapply IHruns; [exact HS'| |exact HK]. intros q y Hy. apply Hs in Hy. destruct m; [exact Hy|right; exact Hy].
  - eapply IHruns; eauto; intros q y Hy; rewrite lookup_empty in Hy; discriminate.
Qed.
Lemma step_safe now d cmd out : step now d cmd out -> (panic_free cmd -> forall d', out <> Crashes d') /\ (~ may_loop cmd -> forall d', out <> Hangs d').
Proof.
  intros R. assert (H0 : scoped [] ∅) by (intros q y Hy; rewrite lookup_empty in Hy; discriminate).
  assert (HH : forall c h, (c = false -> panic_free cmd) -> (h = false -> ~ may_loop cmd) -> (forall d', out = Crashes d' -> c = true) /\ (forall d', out = Hangs d' -> h = true)).
  { intros c h Hc Hh. eapply safe_runs; [exact R|apply exec_safe; auto|exact H0|]. intros q y Hy. rewrite lookup_empty in Hy. discriminate. }
  split; intros Hp d' E.
  - destruct (HH false true) as [H1 _]; [auto|discriminate|]. discriminate (H1 _ E).
  - destruct (HH true false) as [_ H1]; [discriminate|auto|]. discriminate (H1 _ E).
Qed.
Lemma step_answers now d cmd out : step now d cmd out -> panic_free cmd -> ~ may_loop cmd -> exists r d', out = Done r d'.
Proof. intros R H1 H2. destruct (step_safe _ _ _ _ R) as [A1 A2]. destruct out as [r d'|d'|d']; [eauto|destruct (A1 H1 d' eq_refl)|destruct (A2 H2 d' eq_refl)]. Qed.
End WithParams.
