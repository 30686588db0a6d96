(** The reference holds: all commands, histories. *)
From Verif Require Export RefKeys RefSet GenericFacts.

Section WithParams.
Context {P : Setup}.

Definition good (p : string * (list val -> meaning)) : Prop :=
  forall n args now d, named n (fst p) -> Inv d -> meets now d (n :: args) (snd p args).
Lemma reference_good : Forall good reference.
Proof.
  repeat match goal with |- Forall good reference => unfold reference | |- Forall _ (_ :: _) => constructor | |- Forall _ [] => constructor end;
    intros n args now d; cbn [fst snd]; intros Hn HI.
  all: first
    [ exact (ping_meets n args now d Hn HI) | exact (del_meets n args now d Hn HI) | exact (exists_meets n args now d Hn HI)
    | exact (keys_meets n args now d Hn HI) | exact (expire_meets n args now d Hn HI) | exact (persist_meets n args now d Hn HI)
    | exact (ttl_meets n args now d Hn HI) | exact (type_meets n args now d Hn HI) | exact (rename_meets n args now d Hn HI)
    | exact (set_meets n args now d Hn HI) | exact (get_meets n args now d Hn HI) | exact (getrange_meets n args now d Hn HI)
    | exact (setrange_meets n args now d Hn HI) | exact (mget_meets n args now d Hn HI) | exact (mset_meets n args now d Hn HI)
    | exact (setex_meets n args now d Hn HI) | exact (setnx_meets n args now d Hn HI) | exact (strlen_meets n args now d Hn HI)
    | exact (incr_meets n args now d Hn HI) | exact (incrby_meets n args now d Hn HI) | exact (decr_meets n args now d Hn HI)
    | exact (decrby_meets n args now d Hn HI) | exact (incrbyfloat_meets n args now d Hn HI) | exact (append_meets n args now d Hn HI)
    | exact (hdel_meets n args now d Hn HI) | exact (hexists_meets n args now d Hn HI) | exact (hget_meets n args now d Hn HI)
    | exact (hgetall_meets n args now d Hn HI) | exact (hincrby_meets n args now d Hn HI) | exact (hincrbyfloat_meets n args now d Hn HI)
    | exact (hkeys_meets n args now d Hn HI) | exact (hlen_meets n args now d Hn HI) | exact (hmget_meets n args now d Hn HI)
    | exact (hset_meets n args now d Hn HI) | exact (hmset_meets n args now d Hn HI) | exact (hsetnx_meets n args now d Hn HI)
    | exact (hvals_meets n args now d Hn HI) | exact (hstrlen_meets n args now d Hn HI) | exact (hrandfield_meets n args now d Hn HI)
    | exact (lindex_meets n args now d Hn HI) | exact (linsert_meets n args now d Hn HI) | exact (llen_meets n args now d Hn HI)
    | exact (lmove_meets n args now d Hn HI) | exact (lpop_meets n args now d Hn HI) | exact (rpop_meets n args now d Hn HI)
    | exact (lpos_meets n args now d Hn HI) | exact (lpush_meets n args now d Hn HI) | exact (rpush_meets n args now d Hn HI)
    | exact (lpushx_meets n args now d Hn HI) | exact (rpushx_meets n args now d Hn HI) | exact (lrange_meets n args now d Hn HI)
    | exact (lrem_meets n args now d Hn HI) | exact (lset_meets n args now d Hn HI) | exact (ltrim_meets n args now d Hn HI)
    | exact (sadd_meets n args now d Hn HI) | exact (scard_meets n args now d Hn HI) | exact (sismember_meets n args now d Hn HI)
    | exact (smembers_meets n args now d Hn HI) | exact (smove_meets n args now d Hn HI) | exact (spop_meets n args now d Hn HI)
    | exact (srandmember_meets n args now d Hn HI) | exact (srem_meets n args now d Hn HI)
    | exact (setop_meets OpDiff n args now d Hn HI) | exact (setop_meets OpInter n args now d Hn HI) | exact (setop_meets OpUnion n args now d Hn HI)
    | exact (store_meets OpDiff n args now d Hn HI) | exact (store_meets OpInter n args now d Hn HI) | exact (store_meets OpUnion n args now d Hn HI) ].
Qed.

Lemma stored_raw d : forall k, stored d k = raw d k.
Proof. reflexivity. Qed.
Lemma reference_names s a : In (s, a) arity_table -> exists m, In (s, m) reference.
Proof.
  assert (H : forallb (fun p => existsb (fun q => String.eqb (fst p) q) (map fst reference)) arity_table = true) by (vm_compute; reflexivity).
  rewrite forallb_forall in H. intros Hin. specialize (H _ Hin). apply existsb_exists in H as (q & Hq & E).
  apply String.eqb_eq in E. apply in_map_iff in Hq as ([s' m] & <- & Hm). cbn in E. subst. eauto.
Qed.
Lemma names_reference s (m : list val -> meaning) : In (s, m) reference -> exists a, In (s, a) arity_table.
Proof.
  assert (H : forallb (fun q => existsb (fun p => String.eqb (fst p) q) arity_table) (map fst reference) = true) by (vm_compute; reflexivity).
  rewrite forallb_forall in H. intros Hin. specialize (H s ltac:(apply in_map_iff; exists (s, m); auto)). apply existsb_exists in H as ([s' a] & Hq & E).
  apply String.eqb_eq in E. cbn in E. subst. eauto.
Qed.
Lemma some_name n : (exists s m, In (s, m) reference /\ named n s) \/ (forall s m, In (s, m) reference -> ~ named n s).
Proof.
  destruct (List.existsb (fun p => is_word n (fst p)) reference) eqn:E.
  - left. apply existsb_exists in E as ([s m] & Hin & Hw). apply bool_decide_eq_true in Hw. eauto.
  - right. intros s m Hin Hn. assert (E' : List.existsb (fun p => is_word n (fst p)) reference = true); [|congruence].
    apply existsb_exists. exists (s, m). split; auto. apply bool_decide_eq_true; auto.
Qed.
Lemma answers_meets now d cmd : Inv d -> meets now d cmd (answers cmd).
Proof.
  intros HI. destruct cmd as [|n args].
  { intros r d' Hst. inversion Hst. }
  destruct (some_name n) as [(s & m & Hin & Hn)|Hno].
  - pose proof (proj1 (List.Forall_forall _ _) reference_good _ Hin n args now d Hn HI) as Hm. cbn [snd] in Hm.
    intros r d' Hst. destruct (Hm r d' Hst) as (S' & H1 & H2). exists S'. split; auto. left. eauto.
  - intros r d' Hst. apply unknown_harmless in Hst.
    + injection Hst as -> ->. exists (view now d). split; [right; split; auto; split; auto; intros ?; auto|].
      intros k. split; auto. rewrite live_view; auto; lia.
    + intros s a Ha. apply reference_names in Ha as (m & Hm). eauto.
Qed.
Theorem ref_exact now d cmd out : Inv d -> step now d cmd out ->
  match out with
  | Done r d' => ref_step now (stored d) cmd r (stored d')
  | Crashes _ => panics now d cmd
  | Hangs _ => loops_forever now d cmd
  end.
Proof.
  intros HI Hst. destruct out as [r d'|d'|d'].
  - destruct (answers_meets now d cmd HI r d' Hst) as (S' & H1 & H2). exists S'. split; auto.
  - apply (panics_exact now d cmd _ HI Hst); eauto.
  - apply (loops_exact now d cmd _ HI Hst); eauto.
Qed.
Theorem ref_history d h d' : Inv d -> exchange d h d' -> ref_run (stored d) h (stored d').
Proof.
  intros HI H. induction H as [d|d now cmd r d1 h d' Hst H IH]; [constructor|].
  econstructor; [exact (ref_exact now d cmd _ HI Hst)|]. apply IH. eapply step_inv; eauto.
Qed.
End WithParams.
