(** Proofs about memdb/hash.go. *)
From Verif Require Import WpTac StringsProofs.

Section WithParams.
Context {P : Setup}.

(** ** Read-only commands *)
Lemma hash_read_impl (pre : Z -> keyspace -> Prop) (cmd : command) (k : val) (gone : rdata)
  (f : gmap bytes val -> prog rdata) (R : gmap bytes val -> rdata -> Prop) :
  exec_in_db cmd = hash_read k gone f ->
  (forall now d h dl (Q : outcome rdata -> Prop), pre now (view now d) -> view now d (str k) = Some (VHash h, dl) ->
     forall d1, (forall r, R h r -> Q (Done r d1)) -> wp (eq now) d1 (f h) Q) ->
  implements_when pre cmd (single (str k) (hash_reads gone R)).
Proof.
  intros He Hf. apply impl_single. intros now d HI Hpre. rewrite He. unfold hash_read, hash_reads.
  purge_k. destruct b.
  - rewrite (Hb eq_refl) in *. wps. fin. auto.
  - ent; wps; [destruct v|]; wps; try (fin; auto; fail).
    apply (Hf now d h dl); auto. intros r Hr. fin. auto.
Qed.

Ltac hread Hn := eapply hash_read_impl; [exec_cmd Hn; reflexivity|]; cbv beta; intros now d h dl Q Hpre Hv d1 HQ.

Lemma hget_ok n k f : named n "hget" ->
  implements [n; k; f] (single (str k) (hash_reads (RBulk None) (fun h r => r = RBulk (field h (str f))))).
Proof. intros Hn. hread Hn. apply HQ. reflexivity. Qed.
Lemma hexists_ok n k f : named n "hexists" ->
  implements [n; k; f] (single (str k) (hash_reads (RInt 0)
    (fun h r => r = RInt (if decide (is_Some (h !! str f)) then 1 else 0)))).
Proof.
  intros Hn. hread Hn. apply HQ. f_equal. destruct (h !! str f) eqn:E.
  - rewrite decide_True by eauto. auto.
  - rewrite decide_False; auto.
Qed.
Lemma hlen_ok n k : named n "hlen" ->
  implements [n; k] (single (str k) (hash_reads (RInt 0) (fun h r => r = RInt (Z.of_nat (size h))))).
Proof. intros Hn. hread Hn. apply HQ. reflexivity. Qed.
Lemma hstrlen_ok n k f : named n "hstrlen" ->
  implements [n; k; f] (single (str k) (hash_reads (RInt 0) (fun h r => r = RInt (zlen (str (field h (str f))))))).
Proof. intros Hn. hread Hn. apply HQ. reflexivity. Qed.
Lemma hmget_ok n k fs : named n "hmget" -> fs <> [] ->
  implements (n :: k :: fs) (single (str k) (hash_reads (RArr (Some []))
    (fun h r => r = RArr (Some (map (fun f => RBulk (field h (str f))) fs))))).
Proof.
  intros Hn Hf. destruct fs as [|f fs]; [congruence|]. hread Hn. apply HQ. reflexivity.
Qed.

Lemma perm_fields h o : o ≡ₚ hash_fields h ->
  exists l, l ≡ₚ map_to_list h /\ o = l.*1 /\ map (hash_get h) o = l.*2 /\
    concat (map (fun f => [RBulk (Some f); RBulk (hash_get h f)]) o) =
    concat (map (fun p => [RBulk (Some p.1); RBulk p.2]) l).
Proof.
  intros Ho. unfold hash_fields in Ho.
  apply Permutation_map_inv in Ho as (l & -> & Hl).
  exists l. split; [symmetry; auto|]. split; [auto|].
  assert (Hl' : forall p, p ∈ l -> h !! p.1 = Some p.2).
  { intros [a b] Hp. rewrite <- Hl in Hp. apply elem_of_map_to_list in Hp. auto. }
  clear Hl. induction l as [|[a b] l IH]; [auto|].
  destruct IH as [IH1 IH2]; [intros; apply Hl'; right; auto|].
  assert (E : hash_get h a = b) by (pose proof (Hl' (a, b) ltac:(left)) as Hab; unfold hash_get; cbn in Hab; rewrite Hab; auto).
  split.
  - cbn [map fmap list_fmap] in *. cbn. rewrite E. f_equal. exact IH1.
  - cbn [map concat app fst snd] in *. rewrite E. do 2 f_equal. exact IH2.
Qed.

Lemma hgetall_ok n k : named n "hgetall" ->
  implements [n; k] (single (str k) (hash_reads (RArr (Some []))
    (fun h r => exists l, l ≡ₚ map_to_list h /\
       r = RArr (Some (concat (map (fun p => [RBulk (Some p.1); RBulk p.2]) l)))))).
Proof.
  intros Hn. hread Hn. cbn [wp]. intros o Ho. apply HQ.
  destruct (perm_fields h o Ho) as (l & Hl & -> & E1 & E2). exists l. split; auto. rewrite E2; auto.
Qed.
Lemma hkeys_ok n k : named n "hkeys" ->
  implements [n; k] (single (str k) (hash_reads (RArr (Some []))
    (fun h r => exists l, l ≡ₚ fields h /\ r = RArr (Some (map (fun f => RBulk (Some f)) l))))).
Proof. intros Hn. hread Hn. cbn [wp]. intros o Ho. apply HQ. exists o. auto. Qed.
Lemma hvals_ok n k : named n "hvals" ->
  implements [n; k] (single (str k) (hash_reads (RArr (Some []))
    (fun h r => exists l, l ≡ₚ (map_to_list h).*2 /\ r = RArr (Some (map RBulk l))))).
Proof.
  intros Hn. hread Hn. cbn [wp]. intros o Ho. apply HQ.
  destruct (perm_fields h o Ho) as (l & Hl & -> & E1 & E2). exists (l.*2).
  split; [rewrite Hl; auto|]. rewrite <- E1. change (l.*1) with (map fst l). rewrite !map_map. reflexivity.
Qed.

(** ** Sampling *)
Lemma draw_many_wp n keys d now (f : list bytes -> prog rdata) Q :
  keys <> [] ->
  (forall l, (forall x, x ∈ l -> x ∈ keys) -> length l = n -> wp (eq now) d (f l) Q) ->
  wp (eq now) d (pbind (draw_many n keys) f) Q.
Proof.
  intros Hk. revert f. induction n as [|n IH]; intros f H; cbn [draw_many pbind wp].
  - apply H; auto. set_solver.
  - intros o Ho. destruct o as [|x o].
    + apply Permutation_nil in Ho. congruence.
    + rewrite pbind_assoc. apply IH. intros l H1 H2. cbn [pbind]. apply H.
      * intros y [->|Hy]%elem_of_cons; auto. rewrite <- Ho. left.
      * simpl. congruence.
Qed.

Lemma random_keys_wp sz keys count d now (f : list bytes -> prog rdata) Q :
  1 <= sz -> NoDup keys -> keys <> [] \/ 0 <= count ->
  - count * sz <= 2 ^ 48 -> min_int <= count ->
  (forall l, sample keys count l -> wp (eq now) d (f l) Q) ->
  wp (eq now) d (pbind (random_keys sz keys count) f) Q.
Proof.
  intros Hsz Hnd Hne Hc Hmin H. unfold random_keys.
  assert (Hz : 0 <= zlen keys) by (unfold zlen; lia).
  destruct (Z.eqb_spec count 0) as [->|Hc0].
  { cbn [orb pbind]. apply H. split; [set_solver|]. cbn. split; [constructor|]. unfold zlen; simpl. lia. }
  destruct (Z.eqb_spec (zlen keys) 0) as [Hk0|Hk0].
  { cbn [orb pbind]. assert (keys = []) as -> by (destruct keys; auto; unfold zlen in Hk0; simpl in Hk0; lia).
    apply H. split; [set_solver|]. destruct (Z.ltb_spec count 0).
    - destruct Hne; [congruence|lia].
    - split; [constructor|]. unfold zlen; simpl. lia. }
  cbn [orb]. destruct (Z.ltb_spec 0 count) as [Hp|Hp].
  - cbn [pbind wp]. intros o Ho. apply H.
    assert (Hlen : zlen o = zlen keys) by (unfold zlen; rewrite (Permutation_length Ho); auto).
    split.
    + intros x Hx. rewrite <- Ho. eapply elem_of_submseteq; [exact Hx|]. apply sublist_submseteq, sublist_take.
    + destruct (Z.ltb_spec count 0); [lia|]. split.
      * assert (Hno : NoDup o) by (rewrite Ho; auto).
        rewrite <- (take_drop (Z.to_nat (if zlen keys <? count then zlen keys else count)) o) in Hno.
        apply stdpp.list.NoDup_app in Hno as (? & _). auto.
      * unfold zlen in *. rewrite take_length.
        destruct (Z.ltb_spec (Z.of_nat (length keys)) count); lia.
  - rewrite wrap64_small.
    2:{ unfold min_int, max_int in *. split; [lia|]. 
        assert (- count <= 2 ^ 48) by nia. lia. }
    unfold make_ok.
    replace ((0 <=? - count) && (- count * sz <=? 2 ^ 48)) with true
      by (symmetry; apply andb_true_iff; rewrite !Z.leb_le; lia).
    apply draw_many_wp.
    + intros ->. elim Hk0; auto.
    + intros l H1 H2. apply H. split; auto. destruct (Z.ltb_spec count 0); [|lia].
      unfold zlen. lia.
Qed.

Lemma nodup_fields h : NoDup (hash_fields h).
Proof. apply NoDup_fst_map_to_list. Qed.


Lemma hash_fields_nil h : hash_fields h = [] -> h = ∅.
Proof. unfold hash_fields. intros E. apply fmap_nil_inv in E. apply map_to_list_empty_iff. auto. Qed.

Lemma hrandfield_wp now d k count wv : Inv d ->
  hash_nonempty (str k) now (view now d) \/ (0 <= count /\ count <> 1) ->
  (- count * 24 <= 2 ^ 48) -> min_int <= count ->
  wp (eq now) d
    (e <- delete_expired_key (str k) ;; if e then Ret rnil else hrandfield_run k count wv)
    (fun out => exists r d', out = Done r d' /\ Inv d' /\
       hash_reads (RBulk None) (fun h r => exists l, sample (fields h) count l /\
          r = (if count =? 1 then match l with f :: _ => RBulk (Some f) | [] => RBulk None end
               else RArr (Some (if wv then with_values h l else map (fun f => RBulk (Some f)) l))))
         now (view now d (str k)) r (raw d' (str k)) /\
       forall k', k' <> str k -> raw d' k' = raw d k').
Proof.
  intros HI Hne Hc Hmin. unfold hash_reads. purge_k. destruct b.
  - rewrite (Hb eq_refl) in *. wps. fin. auto.
  - unfold hrandfield_run. ent; wps; [destruct v|]; wps; try (fin; auto; fail).
    assert (Hh : hash_fields h <> [] \/ 0 <= count).
    { destruct Hne as [Hne|Hne]; [|right; lia]. left. intros E%hash_fields_nil. subst h.
      apply (Hne dl). auto. }
    destruct (Z.eqb_spec count 1) as [->|Hc1].
    + apply random_keys_wp; auto; try lia; [apply nodup_fields|]. intros l Hl.
      destruct l as [|x l].
      * exfalso. destruct Hl as [_ [_ Hl]]. destruct Hne as [Hne|]; [|lia].
        assert (zlen (hash_fields h) <> 0); [|unfold zlen in *; simpl in *; lia].
        intros E. apply (Hne dl). rewrite Hview. do 3 f_equal. apply hash_fields_nil.
        destruct (hash_fields h); auto. unfold zlen in E; simpl in E; lia.
      * wps. fin. split; auto. exists (x :: l). split; auto.
    + destruct wv.
      * apply random_keys_wp; auto; try lia; [apply nodup_fields|]. intros l Hl.
        wps. fin. split; auto. exists l. split; auto.
      * apply random_keys_wp; auto; try lia; [apply nodup_fields|]. intros l Hl.
        wps. fin. split; auto. exists l. split; auto.
Qed.


Lemma hrandfield1_ok n k : named n "hrandfield" ->
  implements_when (hash_nonempty (str k)) [n; k] (single (str k) (hrandfield_reads 1 false)).
Proof.
  intros Hn. apply impl_single. intros now d HI Hpre. exec_cmd Hn.
  unfold hrandfield_hash. apply hrandfield_wp; auto; unfold min_int; lia.
Qed.
Lemma hrandfield2_ok n k a count : named n "hrandfield" -> atoi (str a) = Some count ->
  - count * 24 <= 2 ^ 48 ->
  implements_when (fun now S => hash_nonempty (str k) now S \/ (0 <= count /\ count <> 1)) [n; k; a]
    (single (str k) (hrandfield_reads count false)).
Proof.
  intros Hn Ha Hc. apply impl_single. intros now d HI Hpre. exec_cmd Hn.
  unfold hrandfield_hash. rewrite Ha. apply hrandfield_wp; auto. apply atoi_range in Ha; lia.
Qed.
Lemma hrandfield3_ok n k a w count : named n "hrandfield" -> atoi (str a) = Some count ->
  named w "withvalues" -> - count * 24 <= 2 ^ 48 ->
  implements_when (fun now S => hash_nonempty (str k) now S \/ (0 <= count /\ count <> 1)) [n; k; a; w]
    (single (str k) (hrandfield_reads count true)).
Proof.
  intros Hn Ha Hw Hc. apply impl_single. intros now d HI Hpre. exec_cmd Hn.
  unfold hrandfield_hash. rewrite Ha. unfold named in Hw. rewrite Hw. beqs.
  apply hrandfield_wp; auto. apply atoi_range in Ha; lia.
Qed.

(** ** HSET, HMSET *)
Lemma hset_all_spec ps : forall h, exists h',
  hset_all h (flat ps) = Some (Z.of_nat (size h') - Z.of_nat (size h), h') /\
  forall f, h' !! f = match last_val ps f with Some v => Some v | None => h !! f end.
Proof.
  induction ps as [|[k v] ps IH]; intros h.
  - exists h. split; [cbn; do 2 f_equal; lia|auto].
  - change (flat ((k, v) :: ps)) with (k :: v :: flat ps). cbn [hset_all hash_set].
    destruct (IH (<[str k:=v]> h)) as (h' & -> & Hh'). exists h'. split.
    + do 2 f_equal. destruct (h !! str k) eqn:E.
      * rewrite map_size_insert_Some by eauto. lia.
      * rewrite map_size_insert_None by auto. lia.
    + intros f. rewrite Hh'. cbn [last_val]. destruct (last_val ps f); auto.
      destruct (decide (str k = f)) as [->|].
      * apply lookup_insert.
      * apply lookup_insert_ne; auto.
Qed.

Lemma flat_length {A} (ps : list (A * A)) : length (flat ps) = (2 * length ps)%nat.
Proof. induction ps; auto. unfold flat in *. cbn [map concat length app]. rewrite IHps. cbn [length]. lia. Qed.

Lemma hset_wp now d n k ps reply : Inv d -> ps <> [] ->
  wp (eq now) d (hset_common (n :: k :: flat ps) reply)
    (fun out => exists r d', out = Done r d' /\ Inv d' /\
       hset_spec ps reply now (view now d (str k)) r (raw d' (str k)) /\
       forall k', k' <> str k -> raw d' k' = raw d k').
Proof.
  intros HI Hps. destruct ps as [|[f v] ps]; [congruence|].
  assert (Hodd : Nat.odd (length (n :: k :: flat ((f, v) :: ps))) = false).
  { cbn [length]. rewrite flat_length.
    replace (S (S (2 * length ((f, v) :: ps)))) with (2 * (S (length ((f, v) :: ps))))%nat by lia.
    rewrite Nat.odd_mul. auto. }
  unfold hset_common. change (flat ((f, v) :: ps)) with (f :: v :: flat ps) at 1. cbv beta iota.
  change (f :: v :: flat ps) with (flat ((f, v) :: ps)).
  rewrite Hodd. cbv zeta. purge_k. unfold hset_spec.
  ent; wps; [destruct v0|]; wps; try (fin; auto; fail).
  - destruct (hset_all_spec ((f, v) :: ps) h) as (h' & -> & Hh'). wps. fin. exists h'. auto.
  - destruct (hset_all_spec ((f, v) :: ps) ∅) as (h' & -> & Hh'). wps. fin. exists h'. auto.
Qed.
Lemma hset_ok n k ps : named n "hset" -> ps <> [] ->
  implements (n :: k :: flat ps) (single (str k) (hset_spec ps RInt)).
Proof.
  intros Hn Hps. apply impl_single. intros now d HI _.
  rewrite (exec_named _ _ _ hset_hash Hn) by reflexivity. apply hset_wp; auto.
Qed.
Lemma hmset_ok n k ps : named n "hmset" -> ps <> [] ->
  implements (n :: k :: flat ps) (single (str k) (hset_spec ps (fun _ => ok))).
Proof.
  intros Hn Hps. apply impl_single. intros now d HI _.
  rewrite (exec_named _ _ _ hmset_hash Hn) by reflexivity. apply hset_wp; auto.
Qed.

(** ** HDEL *)
Lemma hdel_all_spec fs : forall h, exists h',
  hdel_all h fs = (Z.of_nat (size h) - Z.of_nat (size h'), h') /\
  forall f, h' !! f = if decide (f ∈ map str fs) then None else h !! f.
Proof.
  induction fs as [|x fs IH]; intros h.
  - exists h. split; [cbn; f_equal; lia|]. intros f. rewrite decide_False; auto. set_solver.
  - cbn [hdel_all hash_del]. destruct (IH (delete (str x) h)) as (h' & -> & Hh'). exists h'. split.
    + f_equal. destruct (h !! str x) eqn:E.
      * rewrite map_size_delete_Some by eauto.
        assert (size h <> 0%nat) by (intros Hs; apply map_size_empty_inv in Hs; subst; set_solver). lia.
      * rewrite map_size_delete_None by auto. lia.
    + intros f. rewrite Hh'. cbn [map].
      destruct (decide (f ∈ map str fs)).
      * rewrite decide_True by set_solver. auto.
      * destruct (decide (f = str x)) as [->|].
        -- rewrite lookup_delete, decide_True by set_solver. auto.
        -- rewrite lookup_delete_ne, decide_False by set_solver. auto.
Qed.

Lemma hash_len_0 h : (hash_len h =? 0) = bool_decide (h = ∅).
Proof.
  unfold hash_len. destruct (Z.eqb_spec (Z.of_nat (size h)) 0) as [E|E]; symmetry.
  - apply bool_decide_eq_true. apply map_size_empty_inv. lia.
  - apply bool_decide_eq_false. intros ->. rewrite map_size_empty in E. lia.
Qed.

Lemma hdel_ok n k fs : named n "hdel" -> fs <> [] ->
  implements (n :: k :: fs) (single (str k) (hdel_spec (map str fs))).
Proof.
  intros Hn Hps. apply impl_single. intros now d HI _.
  rewrite (exec_named _ _ _ hdel_hash Hn) by reflexivity.
  destruct fs as [|f fs]; [congruence|]. unfold hdel_hash, hdel_spec. cbv zeta.
  purge_k. destruct b.
  - rewrite (Hb eq_refl) in *. wps. fin. auto.
  - ent; wps; [destruct v|]; wps; try (fin; auto; fail).
    destruct (hdel_all_spec (f :: fs) h) as (h' & -> & Hh'). wps.
    rewrite hash_len_0. case_bool_decide as Hem; wps.
    + change (edel (str k) (ddel (str k) ?d)) with (purge (str k) d).
      fin. exists h'. rewrite decide_True by auto. auto.
    + fin. exists h'. rewrite decide_False by auto. auto.
Qed.

(** ** HINCRBY, HINCRBYFLOAT, HSETNX *)
Lemma hash_incrby_spec h f i : min_int <= i <= max_int ->
  hash_incrby h f i = match (match field h f with None => Some 0 | Some s => atoi s end) with
    | Some n => Some (wrap64 (n + i), <[f := Some (fmt_int (wrap64 (n + i)))]> h)
    | None => None
    end.
Proof.
  intros Hi. unfold hash_incrby, hash_get, field. destruct (h !! f) as [[s|]|]; auto.
  - rewrite Z.add_0_l, wrap64_small; auto.
  - rewrite Z.add_0_l, wrap64_small; auto.
Qed.
Lemma hincrby_ok n k f a i : named n "hincrby" -> atoi (str a) = Some i ->
  implements [n; k; f; a] (single_fun (str k) (hincrby_spec (str f) i)).
Proof.
  intros Hn Ha. apply impl_single_fun. start Hn. unfold hincrby_hash, hincrby_spec. rewrite Ha. cbv zeta.
  pose proof (atoi_range _ _ Ha) as Hr.
  purge_k. ent; wps; [destruct v|]; wps; try (fin; fail); rewrite hash_incrby_spec by auto.
  - destruct (match field h (str f) with Some s => atoi s | None => Some 0 end); wps; fin.
  - unfold field. rewrite lookup_empty. wps. fin.
Qed.
Lemma hincrbyfloat_ok n k f a i : named n "hincrbyfloat" -> parse_float (str a) = Some i ->
  implements [n; k; f; a] (single_fun (str k) (hincrbyfloat_spec (str f) i)).
Proof.
  intros Hn Ha. apply impl_single_fun. start Hn. unfold hincrbyfloat_hash, hincrbyfloat_spec. rewrite Ha. cbv zeta.
  purge_k. ent; wps; [destruct v|]; wps; try (fin; fail); unfold hash_incrbyfloat, hash_get, field.
  - destruct (h !! str f) as [[s|]|]; [destruct (parse_float s)| |]; wps; fin.
  - rewrite lookup_empty. wps. fin.
Qed.
Lemma hincrby_bad n k f a : named n "hincrby" -> atoi (str a) = None ->
  implements [n; k; f; a] (single_fun (str k) (hincr_bad_spec err_int)).
Proof.
  intros Hn Ha. apply impl_single_fun. start Hn. unfold hincrby_hash, hincr_bad_spec. rewrite Ha. cbv zeta.
  purge_k. ent; wps; [destruct v|]; wps; fin.
Qed.
Lemma hincrbyfloat_bad n k f a : named n "hincrbyfloat" -> parse_float (str a) = None ->
  implements [n; k; f; a] (single_fun (str k) (hincr_bad_spec err_float)).
Proof.
  intros Hn Ha. apply impl_single_fun. start Hn. unfold hincrbyfloat_hash, hincr_bad_spec. rewrite Ha. cbv zeta.
  purge_k. ent; wps; [destruct v|]; wps; fin.
Qed.
Lemma hsetnx_ok n k f v : named n "hsetnx" ->
  implements [n; k; f; v] (single_fun (str k) (hsetnx_spec (str f) v)).
Proof.
  intros Hn. apply impl_single_fun. start Hn. unfold hsetnx_hash, hsetnx_spec. cbv zeta.
  purge_k. ent; wps; fin.
Qed.

End WithParams.
