(** Corollaries of the facts about all commands, in the form the property theorems use. *)
From Verif Require Export History.

Section WithParams.
Context {P : Setup}.

Lemma table_names : map fst cmd_table = map (fun p => B p.1) arity_table.
Proof. reflexivity. Qed.
Lemma beq_true a b : beq a b = true -> a = b.
Proof. unfold beq. intros H. apply bool_decide_eq_true in H. auto. Qed.
Lemma beq_refl a : beq a a = true.
Proof. unfold beq. apply bool_decide_eq_true. auto. Qed.
Lemma assoc_none {A} n (l : list (bytes * A)) : n ∉ map fst l -> Table.assoc n l = None.
Proof.
  induction l as [|[m x] l IH]; intros H; cbn; auto.
  destruct (beq n m) eqn:E; [|apply IH; intros H'; apply H; right; auto].
  exfalso. apply beq_true in E as ->. apply H. left.
Qed.
Lemma assoc_some {A} n (l : list (bytes * A)) : n ∈ map fst l -> exists x, Table.assoc n l = Some x.
Proof.
  induction l as [|[m x] l IH]; intros H; cbn in *; [inversion H|].
  destruct (beq n m) eqn:E; [eauto|]. apply elem_of_cons in H as [->|H]; [|auto].
  rewrite beq_refl in E. discriminate.
Qed.
Lemma names_in n : n ∈ map fst cmd_table <-> exists s a, In (s, a) arity_table /\ n = B s.
Proof.
  rewrite table_names. split.
  - intros H. apply elem_of_list_fmap in H as ([s a] & -> & H). exists s, a. split; auto. apply elem_of_list_In; auto.
  - intros (s & a & H & ->). apply elem_of_list_fmap. exists (s, a). split; auto. apply elem_of_list_In; auto.
Qed.
Lemma names_small s a : In (s, a) arity_table -> small (B s).
Proof.
  assert (H : forallb (fun e => forallb (fun c => (code c <? 128) && negb ((65 <=? code c) && (code c <=? 90)))%N (B e.1)) arity_table = true)
    by (vm_compute; reflexivity).
  intros Hin. rewrite forallb_forall in H. specialize (H _ Hin). cbn [fst] in H. rewrite forallb_forall in H.
  apply Forall_forall. intros c Hc. specialize (H c Hc).
  apply andb_true_iff in H as [H1 H2]. apply N.ltb_lt in H1. split; [exact H1|]. intros [H3 H4].
  apply N.leb_le in H3, H4. rewrite H3, H4 in H2. discriminate.
Qed.
Lemma case_insensitive n1 n2 args now d out :
  same_upto_case (str n1) (str n2) -> (exists s a, In (s, a) arity_table /\ named n1 s) ->
  step now d (n1 :: args) out <-> step now d (n2 :: args) out.
Proof.
  intros Hc Hn. apply names_in in Hn. apply assoc_some in Hn as [ex Hex].
  unfold step. erewrite exec_case; [reflexivity|apply to_lower_case; auto|exact Hex].
Qed.
Lemma unknown_harmless n args now d out :
  (forall s a, In (s, a) arity_table -> ~ named n s) ->
  step now d (n :: args) out <-> out = Done (RErr (B "unknown command '" ++ str n ++ B "'")) d.
Proof.
  intros Hn. unfold step, exec_in_db, lookup_cmd. rewrite assoc_none.
  - split; [intros H; inversion H; reflexivity|]. intros ->. constructor.
  - rewrite names_in. intros (s & a & Hi & E). eapply Hn; eauto.
Qed.

Lemma arity_rejected s a n args now d out :
  In (s, a) arity_table -> s <> "lpop"%string -> s <> "rpop"%string -> named n s ->
  admits a (S (length args)) = false ->
  step now d (n :: args) out <-> out = Done err_args d.
Proof.
  intros Hi Hl Hr Hn Ha. unfold step. rewrite (exec_arity s a n args Hi Hl Hr Hn Ha). split; [|intros ->; constructor].
  intros H; inversion H; auto.
Qed.
Lemma wrong_type_set now d n k v args out : named n "set" -> wrong_type now d (str k) KStr ->
  step now d (n :: k :: v :: args) out -> (exists d', out = Crashes d') \/ (exists m, out = Done (RErr m) d).
Proof.
  intros Hn (v0 & dl & Hv & Hk) Hst. apply view_some in Hv as [Hd He].
  unfold step in Hst. erewrite (exec_named n (k :: v :: args) _ _ Hn) in Hst by reflexivity.
  destruct (set_opts args no_opts) eqn:E.
  1,2: right; pose proof (wt_set now d n k v args v0 Hd He Hk) as H; rewrite E in H; specialize (H ltac:(congruence));
    apply (wp_sound _ _ _ _ _ Hst) in H; exact H.
  left. unfold set_string in Hst.
  assert (H : wp (eq now) d (set_string (n :: k :: v :: args)) (fun out => exists d', out = Crashes d')).
  { unfold set_string. rewrite wp_purge, He, E. cbn. eauto. }
  exact (wp_sound _ _ _ _ _ Hst H).
Qed.
Lemma wrong_type_srandmember now d n k args out : named n "srandmember" -> wrong_type now d (str k) KSet ->
  (forall a, args = [a] -> atoi (str a) <> Some 0) ->
  step now d (n :: k :: args) out -> exists m, out = Done (RErr m) d.
Proof.
  intros Hn (v0 & dl & Hv & Hk) Ha Hst. apply view_some in Hv as [Hd He].
  unfold step in Hst. erewrite (exec_named n (k :: args) _ _ Hn) in Hst by reflexivity.
  pose proof (wt_srandmember now d n k args v0 Hd He Hk Ha) as H.
  apply (wp_sound _ _ _ _ _ Hst) in H. exact H.
Qed.
Lemma expired_like_missing now d s n k args t : In s one_key_commands -> named n s ->
  exps d !! str k = Some t -> t < now -> like_missing now d (str k) (exec_in_db (n :: k :: args)).
Proof.
  intros Hs Hn Ht Hlt. apply (exec_expired now d s); auto. unfold expired. rewrite Ht. apply Z.ltb_lt; auto.
Qed.
Lemma reachable_deadline d k : reachable d -> is_Some (exps d !! k) -> is_Some (dict d !! k).
Proof. intros H. apply reachable_inv in H. apply H. Qed.
Lemma reachable_count d : reachable d -> cnt d = Z.of_nat (size (dict d)).
Proof. intros H. apply reachable_inv in H. apply H. Qed.
(** PERSIST is the only single-key command missing from [one_key_commands]. *)
Lemma one_key_complete s a : In (s, a) arity_table -> keykind_of (B s) = KFirst -> s = "persist"%string \/ In s one_key_commands.
Proof.
  intros H Hk.
  assert (HF : Forall (fun p => negb (bool_decide (keykind_of (B p.1) = KFirst)) || String.eqb p.1 "persist"
                        || existsb (String.eqb p.1) one_key_commands = true) arity_table).
  { apply (bool_decide_unpack _). vm_compute. exact I. }
  rewrite List.Forall_forall in HF. specialize (HF _ H). cbv beta in HF. change ((s, a).1) with s in HF.
  rewrite bool_decide_true in HF by auto. apply orb_true_iff in HF as [HF|HF].
  - apply orb_true_iff in HF as [HF|HF]; [discriminate|]. left. apply String.eqb_eq; auto.
  - right. apply existsb_exists in HF as (x & Hx & ->%String.eqb_eq). auto.
Qed.
End WithParams.
