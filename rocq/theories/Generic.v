(** Facts about all commands at once: names, arity, frame, wrong types, expired keys. *)
From Verif Require Export Reads.

(** ** Letter case *)

Lemma lower_196 a : (code (lower_ascii a) =? 196)%N = (code a =? 196)%N.
Proof. destruct a as [[] [] [] [] [] [] [] []]; reflexivity. Qed.
Lemma lower_176 a : (code (lower_ascii a) =? 176)%N = (code a =? 176)%N.
Proof. destruct a as [[] [] [] [] [] [] [] []]; reflexivity. Qed.
Lemma lower_226 a : (code (lower_ascii a) =? 226)%N = (code a =? 226)%N.
Proof. destruct a as [[] [] [] [] [] [] [] []]; reflexivity. Qed.
Lemma lower_132 a : (code (lower_ascii a) =? 132)%N = (code a =? 132)%N.
Proof. destruct a as [[] [] [] [] [] [] [] []]; reflexivity. Qed.
Lemma lower_170 a : (code (lower_ascii a) =? 170)%N = (code a =? 170)%N.
Proof. destruct a as [[] [] [] [] [] [] [] []]; reflexivity. Qed.

Lemma to_lower_3 c1 c2 c3 r : to_lower (c1 :: c2 :: c3 :: r) =
  if ((code c1 =? 196) && (code c2 =? 176))%N then ascii_of_N 105 :: to_lower (c3 :: r)
  else if ((code c1 =? 226) && (code c2 =? 132) && (code c3 =? 170))%N then ascii_of_N 107 :: to_lower r
  else lower_ascii c1 :: to_lower (c2 :: c3 :: r).
Proof. reflexivity. Qed.
Lemma to_lower_2 c1 c2 : to_lower [c1; c2] =
  if ((code c1 =? 196) && (code c2 =? 176))%N then [ascii_of_N 105] else [lower_ascii c1; lower_ascii c2].
Proof. reflexivity. Qed.
Lemma lower_capital x y : capital_of x y -> lower_ascii x = y.
Proof.
  intros [H1 H2]. unfold lower_ascii. destruct (_ && _)%N eqn:E; [rewrite <- H2; apply ascii_N_embedding|].
  apply andb_false_iff in E as [E|E]; apply N.leb_gt in E; lia.
Qed.
Lemma capital_lower x y : capital_of x y -> lower_ascii y = y.
Proof.
  intros [H1 H2]. unfold lower_ascii. destruct (_ && _)%N eqn:E; [|reflexivity].
  apply andb_true_iff in E as [E1 E2]; apply N.leb_le in E1, E2. lia.
Qed.
Lemma lower_case x y : x = y \/ capital_of x y \/ capital_of y x -> lower_ascii x = lower_ascii y.
Proof.
  intros [->|[H|H]]; [reflexivity| |].
  - rewrite (lower_capital _ _ H), (capital_lower _ _ H). reflexivity.
  - rewrite (lower_capital _ _ H), (capital_lower _ _ H). reflexivity.
Qed.
Lemma to_lower_case a b : same_upto_case a b -> to_lower a = to_lower b.
Proof.
  unfold same_upto_case. intros H0.
  assert (H1 : Forall2 (fun x y => lower_ascii x = lower_ascii y) a b) by (eapply Forall2_impl; [exact H0|apply lower_case]).
  clear H0. revert H1. remember (length a) as n eqn:E. revert a b E.
  induction n as [n IH] using lt_wf_ind. intros a b E H.
  destruct H as [|x1 y1 a b Hx1 H]; [reflexivity|]. cbn in E.
  assert (HT : to_lower a = to_lower b) by (eapply (IH (length a)); auto; lia).
  destruct H as [|x2 y2 a b Hx2 H]; [cbn; rewrite Hx1; auto|]. cbn in E.
  assert (HT2 : to_lower a = to_lower b) by (eapply (IH (length a)); auto; lia).
  destruct H as [|x3 y3 a b Hx3 H].
  - rewrite !to_lower_2, <- (lower_196 x1), <- (lower_176 x2), Hx1, Hx2, lower_196, lower_176. reflexivity.
  - cbn in E. assert (HT3 : to_lower a = to_lower b) by (eapply (IH (length a)); auto; lia).
    rewrite !to_lower_3, HT, HT2, HT3, <- (lower_196 x1), <- (lower_176 x2), <- (lower_226 x1), <- (lower_132 x2),
      <- (lower_170 x3), Hx1, Hx2, Hx3, lower_196, lower_176, lower_226, lower_132, lower_170. reflexivity.
Qed.

Lemma lower_small x c : lower_ascii x = c -> (code c < 128)%N -> x = c \/ capital_of x c.
Proof.
  unfold lower_ascii. destruct (_ && _)%N eqn:E; [|auto]. intros <- _. right.
  apply andb_true_iff in E as [E1 E2]; apply N.leb_le in E1, E2. split; [lia|]. unfold code. rewrite N_ascii_embedding; unfold code in *; lia.
Qed.
Lemma small_lower c : ~ (65 <= code c <= 90)%N -> lower_ascii c = c.
Proof.
  intros H. unfold lower_ascii. destruct (_ && _)%N eqn:E; [|reflexivity].
  apply andb_true_iff in E as [E1 E2]; apply N.leb_le in E1, E2. tauto.
Qed.
Lemma to_lower_char x w : (code x < 128)%N -> to_lower (x :: w) = lower_ascii x :: to_lower w.
Proof.
  intros H. assert (E1 : (code x =? 196)%N = false) by (apply N.eqb_neq; lia).
  assert (E2 : (code x =? 226)%N = false) by (apply N.eqb_neq; lia).
  destruct w as [|c2 [|c3 r]]; cbn -[lower_ascii]; rewrite ?E1, ?E2; reflexivity.
Qed.
Lemma spelling_lower w s : spelling w s -> small s -> to_lower w = s.
Proof.
  induction 1 as [|x c w s Hx _ IH|w s _ IH|w s _ IH]; intros Hs; [reflexivity| | |]; apply Forall_cons_1 in Hs as [[Hc1 Hc2] Hs].
  - rewrite to_lower_char.
    + rewrite (IH Hs). f_equal. destruct Hx as [->|Hx]; [apply small_lower; auto|exact (lower_capital _ _ Hx)].
    + destruct Hx as [->|[Hx _]]; lia.
  - destruct w; cbn [to_lower] in *; rewrite <- (IH Hs); reflexivity.
  - rewrite to_lower_3, <- (IH Hs). reflexivity.
Qed.
Lemma code_inv c n : (code c =? n)%N = true -> c = ascii_of_N n.
Proof. intros H. apply N.eqb_eq in H. rewrite <- H. unfold code. symmetry. apply ascii_N_embedding. Qed.
Lemma lower_spelling w : forall s, small s -> to_lower w = s -> spelling w s.
Proof.
  remember (length w) as n eqn:E. revert w E. induction n as [n IH] using lt_wf_ind. intros w E s Hs H.
  destruct w as [|c1 w]; [cbn in H; subst; constructor|]. cbn in E.
  assert (Hchar : to_lower (c1 :: w) = lower_ascii c1 :: to_lower w -> spelling (c1 :: w) s).
  { intros Hw. rewrite Hw in H. subst s. apply Forall_cons_1 in Hs as [[Hc1 Hc2] Hs]. constructor; [apply lower_small; auto|].
    eapply (IH (length w)); eauto; lia. }
  destruct w as [|c2 w]; [apply Hchar; reflexivity|]. cbn in E.
  destruct ((code c1 =? 196) && (code c2 =? 176))%N eqn:E1.
  - assert (Hw : to_lower (c1 :: c2 :: w) = ascii_of_N 105 :: to_lower w).
    { destruct w; [rewrite to_lower_2, E1; reflexivity|rewrite to_lower_3, E1; reflexivity]. }
    apply andb_true_iff in E1 as [E1 E2]. apply code_inv in E1, E2. subst c1 c2.
    rewrite Hw in H. subst s. apply Forall_cons_1 in Hs as [_ Hs]. apply SpDotted. eapply (IH (length w)); eauto; lia.
  - destruct w as [|c3 w].
    { apply Hchar. rewrite to_lower_2, E1. reflexivity. }
    destruct ((code c1 =? 226) && (code c2 =? 132) && (code c3 =? 170))%N eqn:E2.
    + rewrite to_lower_3, E1, E2 in H. apply andb_true_iff in E2 as [E2 E3]. apply andb_true_iff in E2 as [E2 E4].
      apply code_inv in E2, E3, E4. subst c1 c2 c3 s. apply Forall_cons_1 in Hs as [_ Hs]. apply SpKelvin.
      eapply (IH (length w)); eauto; cbn in *; lia.
    + apply Hchar. rewrite to_lower_3, E1, E2. reflexivity.
Qed.
Lemma named_spelling n s : small (B s) -> named n s <-> spelling (str n) (B s).
Proof. intros Hs. split; intros H; [apply lower_spelling; auto|apply spelling_lower; auto]. Qed.

Section WithParams.
Context {P : Setup}.

(** The executors never look at the spelling of the command name. *)
Lemma table_ignores_name : Forall (fun e => forall n1 n2 args, e.2 (n1 :: args) = e.2 (n2 :: args)) cmd_table.
Proof. unfold cmd_table. repeat (apply List.Forall_cons; [intros; reflexivity|]). apply List.Forall_nil. Qed.
Lemma exec_case n1 n2 args ex : to_lower (str n1) = to_lower (str n2) ->
  lookup_cmd (to_lower (str n1)) = Some ex -> exec_in_db (n1 :: args) = exec_in_db (n2 :: args).
Proof.
  intros E H. unfold exec_in_db. rewrite <- E, H. apply assoc_in in H.
  pose proof table_ignores_name as HF. rewrite List.Forall_forall in HF. exact (HF _ H n1 n2 args).
Qed.

(** ** Arity *)

Lemma pairs_odd l : Nat.odd (length l) = true -> pairs_of l = None.
Proof.
  remember (length l) as n eqn:E. revert l E. induction n as [n IH] using lt_wf_ind.
  intros [|k [|v l]] E H; cbn in *; subst; [discriminate|reflexivity|].
  rewrite (IH (length l)); auto.
Qed.

(** One table entry: too few, too many or an odd number of words. *)
Ltac arity_go :=
  repeat match goal with
    | |- context [match ?x with [] => _ | _ :: _ => _ end] => is_var x; destruct x; cbn [length admits] in *
    end;
  try reflexivity; try discriminate; try (cbn in *; congruence).

Definition arity_ok_for (a : arity) (ex : command -> prog rdata) : Prop :=
  forall n args, admits a (S (length args)) = false -> ex (n :: args) = Ret err_args.

Tactic Notation "ari" reference(f) := intros n args H; unfold f in *; cbn [admits] in H; arity_go.

Lemma ar_ping : arity_ok_for (Between 1 2) ping_keys.
Proof. intros n args H; unfold ping_keys in *; cbn [admits] in H; arity_go. Qed.
Lemma ar_del : arity_ok_for (AtLeast 2) del_key.
Proof. intros n args H; unfold del_key in *; cbn [admits] in H; arity_go. Qed.
Lemma ar_exists : arity_ok_for (AtLeast 2) exists_key.
Proof. intros n args H; unfold exists_key in *; cbn [admits] in H; arity_go. Qed.
Lemma ar_keys : arity_ok_for (Between 2 2) keys_key.
Proof. intros n args H; unfold keys_key in *; cbn [admits] in H; arity_go. Qed.
Lemma ar_expire : arity_ok_for (Between 3 4) expire_key.
Proof. intros n args H; unfold expire_key in *; cbn [admits] in H; arity_go. Qed.
Lemma ar_persist : arity_ok_for (Between 2 2) persist_key.
Proof. intros n args H; unfold persist_key in *; cbn [admits] in H; arity_go. Qed.
Lemma ar_ttl : arity_ok_for (Between 2 2) ttl_key.
Proof. intros n args H; unfold ttl_key in *; cbn [admits] in H; arity_go. Qed.
Lemma ar_rename : arity_ok_for (Between 3 3) rename_key.
Proof. intros n args H; unfold rename_key in *; cbn [admits] in H; arity_go. Qed.
Lemma ar_type : arity_ok_for (Between 2 2) type_key.
Proof. intros n args H; unfold type_key in *; cbn [admits] in H; arity_go. Qed.
Lemma ar_set : arity_ok_for (AtLeast 3) set_string.
Proof. intros n args H; unfold set_string in *; cbn [admits] in H; arity_go. Qed.
Lemma ar_get : arity_ok_for (Between 2 2) get_string.
Proof. intros n args H; unfold get_string in *; cbn [admits] in H; arity_go. Qed.
Lemma ar_getrange : arity_ok_for (Between 4 4) getrange_string.
Proof. intros n args H; unfold getrange_string in *; cbn [admits] in H; arity_go. Qed.
Lemma ar_setrange : arity_ok_for (Between 4 4) setrange_string.
Proof. intros n args H; unfold setrange_string in *; cbn [admits] in H; arity_go. Qed.
Lemma ar_mget : arity_ok_for (AtLeast 2) mget_string.
Proof. intros n args H; unfold mget_string in *; cbn [admits] in H; arity_go. Qed.
Lemma ar_mset : arity_ok_for (OddFrom 3) mset_string.
Proof.
  intros n args H. unfold mset_string. destruct args as [|k [|v r]]; try reflexivity.
  rewrite pairs_odd; [reflexivity|]. cbn [admits] in H. rewrite <- Nat.negb_even.
  rewrite Nat.odd_succ in H. cbn [length] in *. destruct (Nat.even (S (S (length r)))); [discriminate H|reflexivity].
Qed.
Lemma ar_setex : arity_ok_for (Between 4 4) setex_string.
Proof. intros n args H; unfold setex_string in *; cbn [admits] in H; arity_go. Qed.
Lemma ar_setnx : arity_ok_for (Between 3 3) setnx_string.
Proof. intros n args H; unfold setnx_string in *; cbn [admits] in H; arity_go. Qed.
Lemma ar_strlen : arity_ok_for (Between 2 2) strlen_string.
Proof. intros n args H; unfold strlen_string in *; cbn [admits] in H; arity_go. Qed.
Lemma ar_incr : arity_ok_for (Between 2 2) incr_string.
Proof. intros n args H; unfold incr_string in *; cbn [admits] in H; arity_go. Qed.
Lemma ar_incrby : arity_ok_for (Between 3 3) incrby_string.
Proof. intros n args H; unfold incrby_string in *; cbn [admits] in H; arity_go. Qed.
Lemma ar_decr : arity_ok_for (Between 2 2) decr_string.
Proof. intros n args H; unfold decr_string in *; cbn [admits] in H; arity_go. Qed.
Lemma ar_decrby : arity_ok_for (Between 3 3) decrby_string.
Proof. intros n args H; unfold decrby_string in *; cbn [admits] in H; arity_go. Qed.
Lemma ar_incrbyfloat : arity_ok_for (Between 3 3) incrbyfloat_string.
Proof. intros n args H; unfold incrbyfloat_string in *; cbn [admits] in H; arity_go. Qed.
Lemma ar_append : arity_ok_for (Between 3 3) append_string.
Proof. intros n args H; unfold append_string in *; cbn [admits] in H; arity_go. Qed.
Lemma ar_hdel : arity_ok_for (AtLeast 3) hdel_hash.
Proof. intros n args H; unfold hdel_hash in *; cbn [admits] in H; arity_go. Qed.
Lemma ar_hexists : arity_ok_for (Between 3 3) hexists_hash.
Proof. intros n args H; unfold hexists_hash in *; cbn [admits] in H; arity_go. Qed.
Lemma ar_hget : arity_ok_for (Between 3 3) hget_hash.
Proof. intros n args H; unfold hget_hash in *; cbn [admits] in H; arity_go. Qed.
Lemma ar_hgetall : arity_ok_for (Between 2 2) hgetall_hash.
Proof. intros n args H; unfold hgetall_hash in *; cbn [admits] in H; arity_go. Qed.
Lemma ar_hincrby : arity_ok_for (Between 4 4) hincrby_hash.
Proof. intros n args H; unfold hincrby_hash in *; cbn [admits] in H; arity_go. Qed.
Lemma ar_hincrbyfloat : arity_ok_for (Between 4 4) hincrbyfloat_hash.
Proof. intros n args H; unfold hincrbyfloat_hash in *; cbn [admits] in H; arity_go. Qed.
Lemma ar_hkeys : arity_ok_for (Between 2 2) hkeys_hash.
Proof. intros n args H; unfold hkeys_hash in *; cbn [admits] in H; arity_go. Qed.
Lemma ar_hlen : arity_ok_for (Between 2 2) hlen_hash.
Proof. intros n args H; unfold hlen_hash in *; cbn [admits] in H; arity_go. Qed.
Lemma ar_hmget : arity_ok_for (AtLeast 3) hmget_hash.
Proof. intros n args H; unfold hmget_hash in *; cbn [admits] in H; arity_go. Qed.
Lemma ar_hmset : arity_ok_for (EvenFrom 4) hmset_hash.
Proof.
  intros n args H. unfold hmset_hash, hset_common. destruct args as [|k [|v [|x r]]]; try reflexivity.
  cbn [admits] in H. rewrite <- Nat.negb_even. cbn [length] in *.
  destruct (Nat.even (S (S (S (S (length r)))))); [discriminate H|reflexivity].
Qed.
Lemma ar_hset : arity_ok_for (EvenFrom 4) hset_hash.
Proof.
  intros n args H. unfold hset_hash, hset_common. destruct args as [|k [|v [|x r]]]; try reflexivity.
  cbn [admits] in H. rewrite <- Nat.negb_even. cbn [length] in *.
  destruct (Nat.even (S (S (S (S (length r)))))); [discriminate H|reflexivity].
Qed.
Lemma ar_hsetnx : arity_ok_for (Between 4 4) hsetnx_hash.
Proof. intros n args H; unfold hsetnx_hash in *; cbn [admits] in H; arity_go. Qed.
Lemma ar_hvals : arity_ok_for (Between 2 2) hvals_hash.
Proof. intros n args H; unfold hvals_hash in *; cbn [admits] in H; arity_go. Qed.
Lemma ar_hstrlen : arity_ok_for (Between 3 3) hstrlen_hash.
Proof. intros n args H; unfold hstrlen_hash in *; cbn [admits] in H; arity_go. Qed.
Lemma ar_hrandfield : arity_ok_for (Between 2 4) hrandfield_hash.
Proof. intros n args H; unfold hrandfield_hash in *; cbn [admits] in H; arity_go. Qed.
Lemma ar_lindex : arity_ok_for (Between 3 3) lindex_list.
Proof. intros n args H; unfold lindex_list in *; cbn [admits] in H; arity_go. Qed.
Lemma ar_linsert : arity_ok_for (Between 5 5) linsert_list.
Proof. intros n args H; unfold linsert_list in *; cbn [admits] in H; arity_go. Qed.
Lemma ar_llen : arity_ok_for (Between 2 2) llen_list.
Proof. intros n args H; unfold llen_list in *; cbn [admits] in H; arity_go. Qed.
Lemma ar_lmove : arity_ok_for (Between 5 5) lmove_list.
Proof. intros n args H; unfold lmove_list in *; cbn [admits] in H; arity_go. Qed.
Lemma ar_lpos : arity_ok_for (OddFrom 3) lpos_list.
Proof.
  intros n args H. unfold lpos_list. destruct args as [|k [|v r]]; try reflexivity.
  cbn [admits] in H. rewrite <- Nat.negb_odd. cbn [length] in *.
  destruct (Nat.odd (S (S (S (length r))))); [discriminate H|reflexivity].
Qed.
Lemma ar_lpush : arity_ok_for (AtLeast 3) lpush_list.
Proof. intros n args H; unfold lpush_list, push_list in *; cbn [admits] in H; arity_go. Qed.
Lemma ar_lpushx : arity_ok_for (AtLeast 3) lpushx_list.
Proof. intros n args H; unfold lpushx_list, pushx_list in *; cbn [admits] in H; arity_go. Qed.
Lemma ar_lrange : arity_ok_for (Between 4 4) lrange_list.
Proof. intros n args H; unfold lrange_list in *; cbn [admits] in H; arity_go. Qed.
Lemma ar_lrem : arity_ok_for (Between 4 4) lrem_list.
Proof. intros n args H; unfold lrem_list in *; cbn [admits] in H; arity_go. Qed.
Lemma ar_lset : arity_ok_for (Between 4 4) lset_list.
Proof. intros n args H; unfold lset_list in *; cbn [admits] in H; arity_go. Qed.
Lemma ar_ltrim : arity_ok_for (Between 4 4) ltrim_list.
Proof. intros n args H; unfold ltrim_list in *; cbn [admits] in H; arity_go. Qed.
Lemma ar_rpush : arity_ok_for (AtLeast 3) rpush_list.
Proof. intros n args H; unfold rpush_list, push_list in *; cbn [admits] in H; arity_go. Qed.
Lemma ar_rpushx : arity_ok_for (AtLeast 3) rpushx_list.
Proof. intros n args H; unfold rpushx_list, pushx_list in *; cbn [admits] in H; arity_go. Qed.
Lemma ar_sadd : arity_ok_for (AtLeast 3) sadd_set.
Proof. intros n args H; unfold sadd_set in *; cbn [admits] in H; arity_go. Qed.
Lemma ar_scard : arity_ok_for (Between 2 2) scard_set.
Proof. intros n args H; unfold scard_set in *; cbn [admits] in H; arity_go. Qed.
Lemma ar_sdiff : arity_ok_for (AtLeast 2) sdiff_set.
Proof. intros n args H; unfold sdiff_set, setop_set in *; cbn [admits] in H; arity_go. Qed.
Lemma ar_sdiffstore : arity_ok_for (AtLeast 3) sdiffstore_set.
Proof. intros n args H; unfold sdiffstore_set, setopstore_set in *; cbn [admits] in H; arity_go. Qed.
Lemma ar_sinter : arity_ok_for (AtLeast 2) sinter_set.
Proof. intros n args H; unfold sinter_set, setop_set in *; cbn [admits] in H; arity_go. Qed.
Lemma ar_sinterstore : arity_ok_for (AtLeast 3) sinterstore_set.
Proof. intros n args H; unfold sinterstore_set, setopstore_set in *; cbn [admits] in H; arity_go. Qed.
Lemma ar_sismember : arity_ok_for (Between 3 3) sismember_set.
Proof. intros n args H; unfold sismember_set in *; cbn [admits] in H; arity_go. Qed.
Lemma ar_smembers : arity_ok_for (Between 2 2) smembers_set.
Proof. intros n args H; unfold smembers_set in *; cbn [admits] in H; arity_go. Qed.
Lemma ar_smove : arity_ok_for (Between 4 4) smove_set.
Proof. intros n args H; unfold smove_set in *; cbn [admits] in H; arity_go. Qed.
Lemma ar_spop : arity_ok_for (Between 2 3) spop_set.
Proof. intros n args H; unfold spop_set in *; cbn [admits] in H; arity_go. Qed.
Lemma ar_srandmember : arity_ok_for (Between 2 3) srandmember_set.
Proof. intros n args H; unfold srandmember_set in *; cbn [admits] in H; arity_go. Qed.
Lemma ar_srem : arity_ok_for (AtLeast 3) srem_set.
Proof. intros n args H; unfold srem_set in *; cbn [admits] in H; arity_go. Qed.
Lemma ar_sunion : arity_ok_for (AtLeast 2) sunion_set.
Proof. intros n args H; unfold sunion_set, setop_set in *; cbn [admits] in H; arity_go. Qed.
Lemma ar_sunionstore : arity_ok_for (AtLeast 3) sunionstore_set.
Proof. intros n args H; unfold sunionstore_set, setopstore_set in *; cbn [admits] in H; arity_go. Qed.

Lemma exec_arity s a n args : In (s, a) arity_table -> s <> "lpop"%string -> s <> "rpop"%string ->
  named n s -> admits a (S (length args)) = false -> exec_in_db (n :: args) = Ret err_args.
Proof.
  intros HI Hl Hr Hn Ha. unfold arity_table in HI.
  repeat (destruct HI as [HI|HI]; [injection HI as <- <-; try congruence;
    erewrite (exec_named n args _ _ Hn) by reflexivity|]).
  - apply ar_ping; auto.
  - apply ar_del; auto.
  - apply ar_exists; auto.
  - apply ar_keys; auto.
  - apply ar_expire; auto.
  - apply ar_persist; auto.
  - apply ar_ttl; auto.
  - apply ar_rename; auto.
  - apply ar_type; auto.
  - apply ar_set; auto.
  - apply ar_get; auto.
  - apply ar_getrange; auto.
  - apply ar_setrange; auto.
  - apply ar_mget; auto.
  - apply ar_mset; auto.
  - apply ar_setex; auto.
  - apply ar_setnx; auto.
  - apply ar_strlen; auto.
  - apply ar_incr; auto.
  - apply ar_incrby; auto.
  - apply ar_decr; auto.
  - apply ar_decrby; auto.
  - apply ar_incrbyfloat; auto.
  - apply ar_append; auto.
  - apply ar_hdel; auto.
  - apply ar_hexists; auto.
  - apply ar_hget; auto.
  - apply ar_hgetall; auto.
  - apply ar_hincrby; auto.
  - apply ar_hincrbyfloat; auto.
  - apply ar_hkeys; auto.
  - apply ar_hlen; auto.
  - apply ar_hmget; auto.
  - apply ar_hmset; auto.
  - apply ar_hset; auto.
  - apply ar_hsetnx; auto.
  - apply ar_hvals; auto.
  - apply ar_hstrlen; auto.
  - apply ar_hrandfield; auto.
  - apply ar_lindex; auto.
  - apply ar_linsert; auto.
  - apply ar_llen; auto.
  - apply ar_lmove; auto.
  - apply ar_lpos; auto.
  - apply ar_lpush; auto.
  - apply ar_lpushx; auto.
  - apply ar_lrange; auto.
  - apply ar_lrem; auto.
  - apply ar_lset; auto.
  - apply ar_ltrim; auto.
  - apply ar_rpush; auto.
  - apply ar_rpushx; auto.
  - apply ar_sadd; auto.
  - apply ar_scard; auto.
  - apply ar_sdiff; auto.
  - apply ar_sdiffstore; auto.
  - apply ar_sinter; auto.
  - apply ar_sinterstore; auto.
  - apply ar_sismember; auto.
  - apply ar_smembers; auto.
  - apply ar_smove; auto.
  - apply ar_spop; auto.
  - apply ar_srandmember; auto.
  - apply ar_srem; auto.
  - apply ar_sunion; auto.
  - apply ar_sunionstore; auto.
  - destruct HI.
Qed.

(** ** Wrong types *)

Lemma view_some now d k v dl : view now d k = Some (v, dl) -> dict d !! k = Some v /\ expired now d k = false.
Proof.
  unfold view, expired, live. destruct (dict d !! k) as [w|]; [|discriminate].
  destruct (exps d !! k) as [t|]; [destruct (t <? now)|]; intros H; inversion H; auto.
Qed.

Definition refuses (now : Z) (d : db) (p : prog rdata) : Prop :=
  wp (eq now) d p (fun out => exists m, out = Done (RErr m) d).
End WithParams.

Ltac wt_step Hd He :=
  match goal with
  | |- wp _ _ (pbind (delete_expired_key _) _) _ => rewrite wp_purge, ?He; cbv iota beta
  | |- wp _ _ (let '(_, _) := ?x in _) _ => destruct x
  | |- wp _ _ (pbind (dict_get _) _) _ => rewrite wp_dict_get, Hd; cbv iota beta
  | |- wp _ _ (Ret _) _ => cbn [wp]; eexists; reflexivity
  | H : kind_of _ <> _ |- wp _ _ (match ?v with VStr _ => _ | VHash _ => _ | VList _ => _ | VSet _ => _ end) _ =>
      destruct v; cbn [kind_of] in H; try (exfalso; apply H; reflexivity)
  | |- wp _ _ (match ?x with _ => _ end) _ => destruct x
  | |- _ => wp1
  end.

Section WrongType.
Context {P : Setup}.
Ltac wt_start :=
  intros n k args v Hd He Hk; unfold refuses.
Ltac wt_unf :=
  unfold hset_common, pop_list, push_list, pushx_list, pop_run, hash_read, set_read, list_read, list_update,
    counter_body, hrandfield_run, spop_run, srandmember_run.
Definition wt_for (kd : kind) (ex : command -> prog rdata) : Prop :=
  forall now d n k args v, dict d !! str k = Some v -> expired now d (str k) = false -> kind_of v <> kd ->
    refuses now d (ex (n :: k :: args)).
Ltac wt_go := repeat (match goal with Hd : dict _ !! _ = Some _, He : expired _ _ _ = false |- _ => wt_step Hd He end).
Tactic Notation "wt" reference(f) :=
  intros now d n k args v Hd He Hk; unfold refuses, f; wt_unf; wt_go.
Lemma wt_get : wt_for KStr get_string.
Proof. wt get_string. Qed.
Lemma wt_getrange : wt_for KStr getrange_string.
Proof. wt getrange_string. Qed.
Lemma wt_setrange : wt_for KStr setrange_string.
Proof. wt setrange_string. Qed.
Lemma wt_strlen : wt_for KStr strlen_string.
Proof. wt strlen_string. Qed.
Lemma wt_incr : wt_for KStr incr_string.
Proof. wt incr_string. Qed.
Lemma wt_incrby : wt_for KStr incrby_string.
Proof. wt incrby_string. Qed.
Lemma wt_decr : wt_for KStr decr_string.
Proof. wt decr_string. Qed.
Lemma wt_decrby : wt_for KStr decrby_string.
Proof. wt decrby_string. Qed.
Lemma wt_incrbyfloat : wt_for KStr incrbyfloat_string.
Proof. wt incrbyfloat_string. Qed.
Lemma wt_append : wt_for KStr append_string.
Proof. wt append_string. Qed.
Lemma wt_hdel : wt_for KHash hdel_hash.
Proof. wt hdel_hash. Qed.
Lemma wt_hexists : wt_for KHash hexists_hash.
Proof. wt hexists_hash. Qed.
Lemma wt_hget : wt_for KHash hget_hash.
Proof. wt hget_hash. Qed.
Lemma wt_hgetall : wt_for KHash hgetall_hash.
Proof. wt hgetall_hash. Qed.
Lemma wt_hincrby : wt_for KHash hincrby_hash.
Proof. wt hincrby_hash. Qed.
Lemma wt_hincrbyfloat : wt_for KHash hincrbyfloat_hash.
Proof. wt hincrbyfloat_hash. Qed.
Lemma wt_hkeys : wt_for KHash hkeys_hash.
Proof. wt hkeys_hash. Qed.
Lemma wt_hlen : wt_for KHash hlen_hash.
Proof. wt hlen_hash. Qed.
Lemma wt_hmget : wt_for KHash hmget_hash.
Proof. wt hmget_hash. Qed.
Lemma wt_hmset : wt_for KHash hmset_hash.
Proof. wt hmset_hash. Qed.
Lemma wt_hset : wt_for KHash hset_hash.
Proof. wt hset_hash. Qed.
Lemma wt_hvals : wt_for KHash hvals_hash.
Proof. wt hvals_hash. Qed.
Lemma wt_hstrlen : wt_for KHash hstrlen_hash.
Proof. wt hstrlen_hash. Qed.
Lemma wt_hrandfield : wt_for KHash hrandfield_hash.
Proof. wt hrandfield_hash. Qed.
Lemma wt_lindex : wt_for KList lindex_list.
Proof. wt lindex_list. Qed.
Lemma wt_linsert : wt_for KList linsert_list.
Proof. wt linsert_list. Qed.
Lemma wt_llen : wt_for KList llen_list.
Proof. wt llen_list. Qed.
Lemma wt_lpop : wt_for KList lpop_list.
Proof. wt lpop_list. Qed.
Lemma lpos_opts_err args o e : lpos_opts args o = inr e -> exists m, e = RErr m.
Proof.
  revert o. remember (length args) as n eqn:E. revert args E. induction n as [n IH] using lt_wf_ind.
  intros [|a [|b r]] E o H; cbn [lpos_opts] in H; try discriminate. cbn in E.
  repeat match type of H with
    | (match ?x with _ => _ end) = _ => destruct x
    end; try (injection H as <-; eexists; reflexivity); eapply (IH (length r)); eauto; lia.
Qed.
Lemma set_opts_err args o e : set_opts args o = SP_err e -> exists m, e = RErr m.
Proof.
  revert o. remember (length args) as n eqn:E. revert args E. induction n as [n IH] using lt_wf_ind.
  intros [|a r] E o H; cbn [set_opts] in H; try discriminate. cbn in E. cbv zeta in H.
  repeat match type of H with
    | (match ?x with _ => _ end) = _ => destruct x
    end; try discriminate; try (injection H as <-; eexists; reflexivity);
    first [eapply (IH (length r)); eauto; lia | cbn in E; eapply (IH (length r)); [|reflexivity|eauto]; lia
          | cbn in E; eapply IH; [|reflexivity|exact H]; lia].
Qed.
Lemma wt_lpos : wt_for KList lpos_list.
Proof.
  intros now d n k args v Hd He Hk; unfold refuses, lpos_list; wt_unf.
  destruct args as [|el args]; [wt_go|]. destruct (Nat.even _); [wt_go|]. cbv zeta. rewrite wp_purge, He.
  destruct (lpos_opts args (mkLpos None None None)) as [o|e] eqn:E; [wt_go|].
  apply lpos_opts_err in E as [m ->]. wt_go.
Qed.
Lemma wt_lpush : wt_for KList lpush_list.
Proof. wt lpush_list. Qed.
Lemma wt_lpushx : wt_for KList lpushx_list.
Proof. wt lpushx_list. Qed.
Lemma wt_lrange : wt_for KList lrange_list.
Proof. wt lrange_list. Qed.
Lemma wt_lrem : wt_for KList lrem_list.
Proof. wt lrem_list. Qed.
Lemma wt_lset : wt_for KList lset_list.
Proof. wt lset_list. Qed.
Lemma wt_ltrim : wt_for KList ltrim_list.
Proof. wt ltrim_list. Qed.
Lemma wt_rpop : wt_for KList rpop_list.
Proof. wt rpop_list. Qed.
Lemma wt_rpush : wt_for KList rpush_list.
Proof. wt rpush_list. Qed.
Lemma wt_rpushx : wt_for KList rpushx_list.
Proof. wt rpushx_list. Qed.
Lemma wt_sadd : wt_for KSet sadd_set.
Proof. wt sadd_set. Qed.
Lemma wt_scard : wt_for KSet scard_set.
Proof. wt scard_set. Qed.
Lemma wt_sismember : wt_for KSet sismember_set.
Proof. wt sismember_set. Qed.
Lemma wt_smembers : wt_for KSet smembers_set.
Proof. wt smembers_set. Qed.
Lemma wt_spop : wt_for KSet spop_set.
Proof. wt spop_set. Qed.
Lemma wt_srem : wt_for KSet srem_set.
Proof. wt srem_set. Qed.

Theorem exec_wrong_type s kd now d n k args out :
  In (s, kd) typed_commands -> named n s -> wrong_type now d (str k) kd ->
  step now d (n :: k :: args) out -> exists m, out = Done (RErr m) d.
Proof.
  intros HI Hn (v & dl & Hv & Hk) Hst. apply view_some in Hv as [Hd He].
  revert Hst. unfold step. intros Hst. 
  apply (wp_sound _ _ _ (fun out => exists m, out = Done (RErr m) d) _ Hst). clear Hst.
  cbn in HI.
  repeat (destruct HI as [HI|HI]; [injection HI as <- <-;
    erewrite (exec_named n (k :: args) _ _ Hn) by reflexivity|]).
  - eapply wt_get; eauto.
  - eapply wt_getrange; eauto.
  - eapply wt_setrange; eauto.
  - eapply wt_strlen; eauto.
  - eapply wt_incr; eauto.
  - eapply wt_incrby; eauto.
  - eapply wt_decr; eauto.
  - eapply wt_decrby; eauto.
  - eapply wt_incrbyfloat; eauto.
  - eapply wt_append; eauto.
  - eapply wt_hdel; eauto.
  - eapply wt_hexists; eauto.
  - eapply wt_hget; eauto.
  - eapply wt_hgetall; eauto.
  - eapply wt_hincrby; eauto.
  - eapply wt_hincrbyfloat; eauto.
  - eapply wt_hkeys; eauto.
  - eapply wt_hlen; eauto.
  - eapply wt_hmget; eauto.
  - eapply wt_hmset; eauto.
  - eapply wt_hset; eauto.
  - eapply wt_hvals; eauto.
  - eapply wt_hstrlen; eauto.
  - eapply wt_hrandfield; eauto.
  - eapply wt_lindex; eauto.
  - eapply wt_linsert; eauto.
  - eapply wt_llen; eauto.
  - eapply wt_lpop; eauto.
  - eapply wt_lpos; eauto.
  - eapply wt_lpush; eauto.
  - eapply wt_lpushx; eauto.
  - eapply wt_lrange; eauto.
  - eapply wt_lrem; eauto.
  - eapply wt_lset; eauto.
  - eapply wt_ltrim; eauto.
  - eapply wt_rpop; eauto.
  - eapply wt_rpush; eauto.
  - eapply wt_rpushx; eauto.
  - eapply wt_sadd; eauto.
  - eapply wt_scard; eauto.
  - eapply wt_sismember; eauto.
  - eapply wt_smembers; eauto.
  - eapply wt_spop; eauto.
  - eapply wt_srem; eauto.
  - destruct HI.
Qed.
Lemma wt_srandmember now d n k args v : dict d !! str k = Some v -> expired now d (str k) = false -> kind_of v <> KSet ->
  (forall a, args = [a] -> atoi (str a) <> Some 0) ->
  refuses now d (srandmember_set (n :: k :: args)).
Proof.
  intros Hd He Hk Ha. unfold refuses, srandmember_set. wt_unf.
  destruct args as [|a [|]]; [wt_go| |wt_go]. rewrite wp_purge, He.
  destruct (atoi (str a)) as [c|] eqn:E; [|wt_go]. destruct (c =? 0) eqn:Ec; [|wt_go].
  apply Z.eqb_eq in Ec. subst. destruct (Ha a); auto.
Qed.
Lemma wt_set now d n k v0 args v : dict d !! str k = Some v -> expired now d (str k) = false -> kind_of v <> KStr ->
  set_opts args no_opts <> SP_crash ->
  refuses now d (set_string (n :: k :: v0 :: args)).
Proof.
  intros Hd He Hk Ha. unfold refuses, set_string. rewrite wp_purge, He.
  destruct (set_opts args no_opts) eqn:E; [wt_go| |congruence].
  apply set_opts_err in E as [m ->]. wt_go.
Qed.
End WrongType.
