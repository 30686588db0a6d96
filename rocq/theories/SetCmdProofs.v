(** Proofs about memdb/set.go. *)
From Verif Require Import WpTac StringsProofs HashProofs ListProofs LposProofs.

Section WithParams.
Context {P : Setup}.

Ltac scases :=
  purge_k;
  match goal with
  | |- context [if ?b then _ else _] => is_var b; destruct b;
      [match goal with Hb : true = true -> _ |- _ => rewrite (Hb eq_refl) in * end; wps|]
  | _ => idtac
  end.
Ltac ssplit := ent; wps; [match goal with v : value |- _ => destruct v end|]; wps.

(** ** SADD, SREM *)
Lemma set_add_spec s x : set_add s x = (card (s ∪ {[x]}) - card s, s ∪ {[x]}).
Proof.
  unfold set_add, card. case_bool_decide.
  - replace (s ∪ {[x]}) with s by set_solver. f_equal. lia.
  - rewrite (union_comm_L s {[x]}). f_equal. rewrite size_union by set_solver. rewrite size_singleton. lia.
Qed.
Lemma sadd_all_spec xs : forall s, sadd_all s xs = (card (s ∪ args_set xs) - card s, s ∪ args_set xs).
Proof.
  unfold args_set. induction xs as [|x xs IH]; intros s; cbn [sadd_all map list_to_set].
  - rewrite union_empty_r_L. f_equal. lia.
  - rewrite set_add_spec, IH. rewrite (union_assoc_L s). f_equal. lia.
Qed.
Lemma set_rem_spec s x : set_rem s x = (card s - card (s ∖ {[x]}), s ∖ {[x]}).
Proof.
  unfold set_rem, card. case_bool_decide.
  - f_equal. rewrite size_difference by set_solver. rewrite size_singleton.
    assert (size s <> 0%nat) by (intros Hs%size_empty_inv; set_solver). lia.
  - replace (s ∖ {[x]}) with s by set_solver. f_equal. lia.
Qed.
Lemma srem_all_spec xs : forall s, srem_all s xs = (card s - card (s ∖ args_set xs), s ∖ args_set xs).
Proof.
  unfold args_set. induction xs as [|x xs IH]; intros s; cbn [srem_all map list_to_set].
  - rewrite difference_empty_L. f_equal. lia.
  - rewrite set_rem_spec, IH. rewrite difference_difference_L. f_equal. lia.
Qed.
Lemma sadd_ok n k xs : named n "sadd" -> xs <> [] ->
  implements (n :: k :: xs) (single_fun (str k) (sadd_spec xs)).
Proof.
  intros Hn Hx. apply impl_single_fun. intros now d HI _.
  rewrite (exec_named _ _ _ sadd_set Hn) by reflexivity.
  destruct xs as [|x xs]; [congruence|]. unfold sadd_set, sadd_spec. cbv zeta.
  purge_k. ssplit; cbn [on_set]; try (fin; fail); rewrite sadd_all_spec; wps; fin.
  rewrite union_empty_l_L. do 2 f_equal. unfold card. rewrite size_empty. lia.
Qed.
Lemma srem_ok n k xs : named n "srem" -> xs <> [] ->
  implements (n :: k :: xs) (single_fun (str k) (srem_spec xs)).
Proof.
  intros Hn Hx. apply impl_single_fun. intros now d HI _.
  rewrite (exec_named _ _ _ srem_set Hn) by reflexivity.
  destruct xs as [|x xs]; [congruence|]. unfold srem_set, srem_spec. cbv zeta.
  purge_k. ssplit; cbn [on_set]; try (fin; fail); rewrite srem_all_spec; wps; fin.
Qed.

(** ** Reading *)
Lemma scard_ok n k : named n "scard" -> implements [n; k] (single_fun (str k) scard_spec).
Proof.
  intros Hn. apply impl_single_fun. start Hn. unfold scard_set, set_read. cbv zeta. scases; [fin|]. ssplit; fin.
Qed.
Lemma sismember_ok n k x : named n "sismember" ->
  implements [n; k; x] (single_fun (str k) (sismember_spec (str x))).
Proof.
  intros Hn. apply impl_single_fun. start Hn. unfold sismember_set, set_read. cbv zeta. scases; [fin|].
  ssplit; try (fin; fail). unfold sismember_spec. cbn [on_set]. fin.
  case_bool_decide; [rewrite decide_True|rewrite decide_False]; auto.
Qed.
Lemma range_lists s o : o ≡ₚ elements s -> lists_set s (rarr_nilable (rbulks o)).
Proof.
  intros Ho. exists o. split; [rewrite Ho; apply NoDup_elements|]. split.
  - intros x. rewrite Ho. apply elem_of_elements.
  - destruct o; auto.
Qed.
Lemma smembers_ok n k : named n "smembers" -> implements [n; k] (single (str k) smembers_spec).
Proof.
  intros Hn. apply impl_single. start Hn. unfold smembers_set, set_read, smembers_spec. cbv zeta. scases; [fin; auto|].
  ssplit; try (fin; auto; fail). intros o Ho. fin. auto using range_lists.
Qed.

(** ** SPOP *)
Lemma sdrop_wp now k l dl (f : unit -> prog rdata) Q d0 :
  Inv d0 -> (exists v, raw d0 k = Some (v, dl)) ->
  (forall d', Inv d' -> raw d' k = keep_set l dl -> (forall k', k' <> k -> raw d' k' = raw d0 k') ->
     wp (eq now) d' (f tt) Q) ->
  wp (eq now) (mut k (VSet l) d0) (pbind (sdrop_if_empty k l) f) Q.
Proof.
  intros HI [v Hr] H. pose proof (raw_dict _ _ _ Hr) as HD. pose proof (raw_exps _ _ _ HI Hr) as HE.
  cbn in HD, HE. unfold sdrop_if_empty, set_len, keep_set in *.
  destruct (decide (l = ∅)) as [->|Hl].
  - rewrite size_empty. change (Z.of_nat 0 =? 0) with true. wps. apply H; auto with inv.
    + rawsimp. auto.
    + intros; rawsimp; auto.
  - replace (Z.of_nat (size l) =? 0) with false.
    2:{ symmetry. apply Z.eqb_neq. intros E. apply Hl. apply leibniz_equiv. apply size_empty_inv. lia. }
    wps. apply H; auto with inv.
    + rawsimp. auto.
    + intros; rawsimp; auto.
Qed.

Lemma set_pop_wp (now : Z) (d : db) (s : gset bytes) (f : bytes * gset bytes -> prog rdata) (Q : outcome rdata -> Prop) :
  (s = ∅ -> wp (eq now) d (f ([], ∅)) Q) ->
  (forall x, x ∈ s -> wp (eq now) d (f (x, s ∖ {[x]})) Q) ->
  wp (eq now) d (pbind (set_pop s) f) Q.
Proof.
  intros H1 H2. unfold set_pop. cbn [pbind wp]. intros o Ho. destruct o as [|x o].
  - cbn [pbind]. assert (s = ∅) as ->; [|auto].
    apply Permutation_nil in Ho. apply elements_empty_inv in Ho. apply leibniz_equiv; auto.
  - cbn [pbind]. apply H2. apply elem_of_elements. rewrite <- Ho. left.
Qed.
Lemma pop_many_wp (now : Z) (d : db) : forall (n : nat) (s : gset bytes) (f : list bytes * gset bytes -> prog rdata) (Q : outcome rdata -> Prop), (n <= size s)%nat ->
  (forall l, NoDup l -> (forall x, x ∈ l -> x ∈ s) -> length l = n ->
     wp (eq now) d (f (l, s ∖ list_to_set l)) Q) ->
  wp (eq now) d (pbind (pop_many n s) f) Q.
Proof.
  induction n as [|n IH]; intros s f Q Hn H; cbn [pop_many].
  - cbn [pbind]. specialize (H []). cbn [list_to_set] in H. rewrite difference_empty_L in H.
    apply H; auto; [constructor|set_solver].
  - rewrite pbind_assoc. apply set_pop_wp.
    + intros ->. rewrite size_empty in Hn. lia.
    + intros x Hx. cbn [fst snd]. rewrite pbind_assoc.
      assert (Hsz : size (s ∖ {[x]}) = (size s - 1)%nat).
      { rewrite size_difference by set_solver. rewrite size_singleton. auto. }
      apply IH; [lia|]. intros l Hnd Hl Hlen. cbn [pbind fst snd].
      replace (s ∖ {[x]} ∖ list_to_set l) with (s ∖ list_to_set (x :: l)).
      2:{ cbn [list_to_set]. rewrite difference_difference_L. auto. }
      apply H.
      * constructor; auto. intros Hin. apply Hl in Hin. set_solver.
      * intros y [->|Hy]%elem_of_cons; auto. apply Hl in Hy. set_solver.
      * simpl. lia.
Qed.

Lemma spop_ok n k : named n "spop" -> implements [n; k] (single (str k) spop_spec).
Proof.
  intros Hn. apply impl_single. start Hn. unfold spop_set, spop_run, spop_spec. cbv zeta. scases; [fin; auto|].
  ssplit; try (fin; auto; fail). apply set_pop_wp.
  - intros ->. cbn [fst snd]. wps. apply (sdrop_wp now (str k) ∅ dl); [assumption|eauto|].
    intros d' HI' Hr' Hf'. wps. eexists _, _. split; [reflexivity|]. split; auto. split.
    + left. auto.
    + intros k' Hk'. rewrite Hf' by auto. auto.
  - intros x Hx. cbn [fst snd]. wps. eapply (sdrop_wp now (str k) _ dl); [assumption|eauto|].
    intros d' HI' Hr' Hf'. wps. eexists _, _. split; [reflexivity|]. split; auto. split.
    + right. exists x. split; auto. split; [destruct x; auto|auto].
    + intros k' Hk'. rewrite Hf' by auto. auto.
Qed.
Lemma spopn_ok n k a c : named n "spop" -> atoi (str a) = Some c -> 0 < c ->
  implements [n; k; a] (single (str k) (spopn_spec c)).
Proof.
  intros Hn Ha Hc. apply impl_single. start Hn. unfold spop_set, spop_run, spopn_spec. cbv zeta. scases; [fin; auto|].
  rewrite Ha. replace (c <=? 0) with false by (symmetry; apply Z.leb_gt; auto).
  ssplit; try (fin; auto; fail). unfold set_len.
  set (m := Z.to_nat (if Z.of_nat (size s) <? c then Z.of_nat (size s) else c)).
  assert (Hm : Z.of_nat m = Z.min c (Z.of_nat (size s))).
  { unfold m. destruct (Z.ltb_spec (Z.of_nat (size s)) c); lia. }
  apply pop_many_wp; [lia|]. intros l Hnd Hl Hlen. cbn [fst snd]. wps.
  eapply (sdrop_wp now (str k) _ dl); [assumption|eauto|].
  intros d' HI' Hr' Hf'. wps. eexists _, _. split; [reflexivity|]. split; auto. split.
  - exists l. split; auto. split; auto. split; auto. unfold zlen, card. lia.
  - intros k' Hk'. rewrite Hf' by auto. auto.
Qed.

(** ** SRANDMEMBER *)

Lemma elements_ne (s : gset bytes) : s <> ∅ -> elements s <> [].
Proof. intros Hs E. apply Hs. apply elements_empty_inv in E. apply leibniz_equiv; auto. Qed.

Lemma srandmember_ok n k : named n "srandmember" ->
  implements_when (set_nonempty (str k)) [n; k] (single (str k) srandmember_spec).
Proof.
  intros Hn. apply impl_single. start Hn. unfold srandmember_set, srandmember_run, srandmember_spec.
  cbv zeta. scases; [fin; auto|]. ssplit; try (fin; auto; fail).
  assert (Hs : s <> ∅) by (intros ->; apply (Hpre dl); auto).
  apply random_keys_wp; try lia; [apply NoDup_elements|unfold min_int; lia|].
  intros l [Hl [_ Hlen]]. pose proof (elements_ne s Hs).
  destruct l as [|x l].
  { exfalso. destruct (elements s); [congruence|]. unfold zlen in Hlen. simpl length in Hlen. lia. }
  assert (Hx : x ∈ s) by (apply elem_of_elements, Hl; left).
  destruct x as [|c x]; wps; fin; (split; [auto|]); eexists; (split; [exact Hx|]); auto.
Qed.
Lemma srandmember0_ok n k a : named n "srandmember" -> atoi (str a) = Some 0 ->
  implements [n; k; a] (single_fun (str k) (always (RBulk None))).
Proof.
  intros Hn Ha. apply impl_single_fun. start Hn. unfold srandmember_set, always. scases; [fin|].
  rewrite Ha. cbn [Z.eqb]. wps. fin.
Qed.
Lemma srandmembern_ok n k a c : named n "srandmember" -> atoi (str a) = Some c ->
  c <> 0 -> Z.abs c * 16 <= 2 ^ 48 ->
  implements_when (fun now S => set_nonempty (str k) now S \/ 0 < c) [n; k; a]
    (single (str k) (srandmembern_spec c)).
Proof.
  intros Hn Ha Hc0 Hc. apply impl_single. start Hn. unfold srandmember_set, srandmember_run, srandmembern_spec.
  cbv zeta. scases; [fin; auto|]. rewrite Ha.
  replace (c =? 0) with false by (symmetry; apply Z.eqb_neq; auto). ssplit; try (fin; auto; fail).
  pose proof (atoi_range _ _ Ha) as Hr. unfold min_int, max_int in Hr.
  replace (if c <? 0 then wrap64 (- c) else c) with (Z.abs c).
  2:{ destruct (Z.ltb_spec c 0); [|lia]. rewrite wrap64_small by (unfold min_int, max_int; lia). lia. }
  replace (make_ok (Z.abs c) 16) with true.
  2:{ symmetry. unfold make_ok. apply andb_true_iff. rewrite !Z.leb_le. lia. }
  apply random_keys_wp; try lia; [apply NoDup_elements| |unfold min_int; lia|].
  - destruct Hpre as [Hpre|Hpre]; [|right; lia]. left. apply elements_ne. intros ->. apply (Hpre dl); auto.
  - intros l Hl. wps. fin. split; auto. exists l. auto.
Qed.

(** ** Set algebra *)
Lemma live_keys_wp now d0 : forall (ks : list val) (d : db) (acc : list bytes) (f : list bytes -> prog rdata) (Q : outcome rdata -> Prop),
  Inv d -> (forall k, k ∈ ks -> expired now d (str k) = false) ->
  wp (eq now) d (f (acc ++ map str ks)) Q ->
  d0 = d ->
  wp (eq now) d (pbind (live_keys ks acc) f) Q.
Proof.
  induction ks as [|k ks IH]; intros d acc f Q HI Hex H Hd.
  - cbn [live_keys pbind map]. rewrite app_nil_r in H. auto.
  - cbn [live_keys]. rewrite pbind_assoc, wp_purge, Hex by left.
    apply IH; auto.
    + intros; apply Hex; right; auto.
    + cbn [map] in H. rewrite <- app_assoc. auto.
Qed.

Lemma read_sets_wp (now : Z) (d : db) (missing : list (gset bytes)) (f : list (gset bytes) + unit -> prog rdata) (Q : outcome rdata -> Prop) :
  forall ks acc, 
  wp (eq now) d (f (match mapM (fun k => match dict d !! k with
                      | None => Some missing | Some (VSet s) => Some [s] | Some _ => None end) ks with
                    | Some l => inl (acc ++ concat l) | None => inr tt end)) Q ->
  wp (eq now) d (pbind (read_sets missing ks acc) f) Q.
Proof.
  induction ks as [|k ks IH]; intros acc H.
  - cbn in *. rewrite app_nil_r in H. auto.
  - cbn [read_sets]. rewrite pbind_assoc, wp_dict_get. cbn [mapM] in H. 
    destruct (dict d !! k) as [[s|h|l|s]|] eqn:E; cbn in H |- *; auto.
    + apply IH. destruct (mapM _ ks) as [l|]; cbn in *; auto. rewrite <- app_assoc. auto.
    + apply IH. destruct (mapM _ ks) as [l|]; cbn in *; auto. rewrite <- app_assoc. auto.
Qed.

Lemma unexp_view now d k : Inv d -> unexpired now d k -> raw d k = view now d k.
Proof.
  intros HI H. apply expired_raw; auto. unfold expired, unexpired in *.
  destruct (exps d !! k) eqn:E; auto. specialize (H _ eq_refl). apply Z.ltb_ge. lia.
Qed.
Lemma unexp_false now d k : unexpired now d k -> expired now d k = false.
Proof.
  unfold expired, unexpired. intros H. destruct (exps d !! k) eqn:E; auto.
  specialize (H _ eq_refl). apply Z.ltb_ge. lia.
Qed.
Definition opnd (d : db) (k : bytes) : option (gset bytes) :=
  match dict d !! k with None => Some ∅ | Some (VSet s) => Some s | Some _ => None end.
Lemma opnd_view now d k : Inv d -> unexpired now d k -> opnd d k = operand (view now d k).
Proof.
  intros HI H. rewrite <- unexp_view by auto. unfold opnd, raw. destruct (dict d !! k) as [[]|]; auto.
Qed.

Lemma set_op_spec op s sets x : x ∈ set_op op s sets <-> in_result op x s sets.
Proof.
  unfold set_op, in_result. destruct op; revert s; induction sets as [|t sets IH]; intros s; cbn [fold_left].
  - split; [intros; exists s; split; [left|auto]|]. intros (u & Hu%elem_of_list_singleton & Hx). subst; auto.
  - rewrite IH. clear IH. split; intros [u [Hu Hx]].
    + apply elem_of_cons in Hu as [->|Hu].
      * apply elem_of_union in Hx as [?|?]; [exists s|exists t]; (split; [|auto]); [left|right; left].
      * exists u. split; auto. right; right; auto.
    + apply elem_of_cons in Hu as [->|Hu]; [exists (s ∪ t); split; [left|set_solver]|].
      apply elem_of_cons in Hu as [->|Hu]; [exists (s ∪ t); split; [left|set_solver]|].
      exists u. split; auto. right; auto.
  - split; [intros Hx u Hu%elem_of_list_singleton; subst; auto|]. intros H. apply H. left.
  - rewrite IH. clear IH. split; intros H.
    + assert (x ∈ s ∩ t) by (apply H; left). intros u [->|[->|Hu]%elem_of_cons]%elem_of_cons; [set_solver..|].
      apply H. right; auto.
    + intros u [->|Hu]%elem_of_cons; [|apply H; right; right; auto].
      apply elem_of_intersection. split; apply H; [left|right; left].
  - split; [|tauto]. intros; split; auto. intros u Hu%elem_of_nil; tauto.
  - rewrite IH. clear IH. split; intros [H1 H2].
    + apply elem_of_difference in H1 as [H1 H3]. split; auto. intros u [->|Hu]%elem_of_cons; auto.
    + split; [apply elem_of_difference; split; auto; apply H2; left|]. intros u Hu; apply H2; right; auto.
Qed.

Lemma mapM_single (g : bytes -> option (gset bytes)) h ks :
  (forall k, k ∈ ks -> h k = match g k with Some s => Some [s] | None => None end) ->
  mapM h ks = match mapM g ks with Some l => Some (map (fun s => [s]) l) | None => None end.
Proof.
  induction ks as [|k ks IH]; intros H; auto. cbn [mapM]. rewrite H by left.
  destruct (g k) as [s|]; cbn; auto. rewrite IH by (intros; apply H; right; auto).
  destruct (mapM g ks); auto.
Qed.
Lemma mapM_ext' {A B} (g h : A -> option B) ks : (forall k, k ∈ ks -> g k = h k) -> mapM g ks = mapM h ks.
Proof.
  induction ks as [|k ks IH]; intros H; auto. cbn [mapM]. rewrite H by left.
  destruct (h k); cbn; auto. rewrite IH by (intros; apply H; right; auto). auto.
Qed.
Lemma concat_single {A} (l : list A) : concat (map (fun s => [s]) l) = l.
Proof. induction l; simpl; congruence. Qed.

Lemma setop_wp op n k ks now d : Inv d -> (forall x, x ∈ k :: ks -> unexpired now d (str x)) ->
  wp (eq now) d (setop_set op (n :: k :: ks)) (fun out => exists r d', out = Done r d' /\ Inv d' /\
     setop_spec op (str k) (map str ks) now (view now d) r (view now d')).
Proof.
  intros HI Hu. unfold setop_set. eapply live_keys_wp; auto.
  { intros; apply unexp_false; auto. }
  cbn [app map]. wps. unfold setop_spec.
  assert (Hop : forall x, x ∈ k :: ks -> opnd d (str x) = operand (view now d (str x))).
  { intros; apply opnd_view; auto. }
  rewrite <- Hop by left.
  assert (Hm : mapM (fun k => operand (view now d k)) (map str ks) = mapM (opnd d) (map str ks)).
  { apply mapM_ext'. intros y Hy. apply elem_of_list_In, in_map_iff in Hy as (z & <- & Hz).
    symmetry. apply Hop. right. apply elem_of_list_In; auto. }
  rewrite Hm.
  assert (Hgo : forall s, wp (eq now) d
      (sets <- read_sets [∅] (map str ks) [] ;;
       match sets with
       | inr _ => Ret err_wrong_kind
       | inl sets => Range (elements (set_op op s sets)) (fun o => Ret (rarr_nilable (rbulks o)))
       end) (fun out => exists r d', out = Done r d' /\ Inv d' /\
         same (view now d) (view now d') /\
         match mapM (opnd d) (map str ks) with
         | Some ss => exists s', (forall x, x ∈ s' <-> in_result op x s ss) /\ lists_set s' r
         | None => r = err_wrong_kind end)).
  { intros s. apply read_sets_wp. rewrite (mapM_single (opnd d)).
    2:{ intros y _. unfold opnd. destruct (dict d !! y) as [[]|]; auto. }
    destruct (mapM (opnd d) (map str ks)) as [ss|].
    - rewrite concat_single. cbn [app wp]. intros o Ho.
      eexists _, _. split; [reflexivity|]. split; auto. split; [intros ?; auto|].
      exists (set_op op s ss). split; [intros; apply set_op_spec|]. apply range_lists; auto.
    - wps. eexists _, _. split; [reflexivity|]. split; auto. split; [intros ?; auto|]. auto. }
  unfold opnd at 1. destruct (dict d !! str k) as [[]|] eqn:E; try apply Hgo; wps;
    (eexists _, _; split; [reflexivity|]; split; [auto|]; split; [intros ?; auto|]; auto).
Qed.
Lemma setop_ok op n k ks : named n (setop_word op) ->
  implements_on (fun now d => forall x, x ∈ k :: ks -> unexpired now d (str x)) (n :: k :: ks)
    (setop_spec op (str k) (map str ks)).
Proof.
  intros Hn. apply impl_multi. intros now d HI Hu.
  destruct op; cbn [setop_word] in Hn; erewrite (exec_named _ _ _ _ Hn) by reflexivity; apply setop_wp; auto.
Qed.

(** ** The STORE variants *)

Lemma view_unexpired now d k : unexpired now d k -> forall d', sim now d' d -> Inv d' -> Inv d -> unexpired now d' k.
Proof.
  intros H d' Hs HI' HI t Ht. apply H. destruct (Hs k) as [E|[E _]].
  - rewrite <- Ht. rewrite (raw_exps d' k _ HI' E), (raw_exps d k _ HI eq_refl). auto.
  - rewrite (raw_exps d' k _ HI' E) in Ht. discriminate.
Qed.

Lemma setopstore_wp op n dst k ks now d : Inv d -> (forall x, x ∈ k :: ks -> unexpired now d (str x)) ->
  present op (view now d) (map str ks) ->
  (forall x, x ∈ k :: ks -> operand (view now d (str x)) <> None) ->
  wp (eq now) d (setopstore_set op (n :: dst :: k :: ks)) (fun out => exists r d', out = Done r d' /\ Inv d' /\
     setopstore_spec op (str dst) (str k) (map str ks) now (view now d) r (view now d')).
Proof.
  intros HI Hu Hp Hnw. unfold setopstore_set. cbv zeta.
  apply wp_purge_sim; auto. intros d1 b HI1 Hs1 He1 Hr1 _ Hf1.
  assert (Hu1 : forall x, x ∈ k :: ks -> unexpired now d1 (str x)).
  { intros x Hx. eapply view_unexpired; eauto. }
  eapply live_keys_wp; auto.
  { intros; apply unexp_false; auto. }
  cbn [app map]. cbv iota. wps. unfold setopstore_spec.
  assert (Hv : forall x, view now d1 x = view now d x) by (intros; apply (sim_view now); auto; lia).
  assert (Hop : forall x, x ∈ k :: ks -> opnd d1 (str x) = operand (view now d (str x))).
  { intros. rewrite (opnd_view now), Hv; auto. }
  rewrite <- Hop by left.
  assert (Hm : mapM (fun k => operand (view now d k)) (map str ks) = mapM (opnd d1) (map str ks)).
  { apply mapM_ext'. intros y Hy. apply elem_of_list_In, in_map_iff in Hy as (z & <- & Hz).
    symmetry. apply Hop. right. apply elem_of_list_In; auto. }
  rewrite Hm.
  assert (Hss : exists ss, mapM (opnd d1) (map str ks) = Some ss /\
     exists l, mapM (fun k => match dict d1 !! k with
         | None => Some [] | Some (VSet s) => Some [s] | Some _ => None end) (map str ks) = Some l /\
     forall x s, in_result op x s (concat l) <-> in_result op x s ss).
  { clear Hm. assert (Hp' : op = OpInter -> forall x, x ∈ ks -> dict d1 !! str x <> None).
    { intros Eop x Hx Hd. apply (Hp Eop (str x)).
      - apply elem_of_list_In, in_map, elem_of_list_In; auto.
      - rewrite <- Hv, <- unexp_view by (auto; apply Hu1; right; auto). unfold raw. rewrite Hd. auto. }
    assert (Hnw' : forall x, x ∈ ks -> opnd d1 (str x) <> None).
    { intros x Hx. rewrite Hop by (right; auto). apply Hnw. right; auto. }
    clear Hnw Hop Hu Hu1 Hp. induction ks as [|y ks IH].
    - exists []. split; auto. exists []. split; auto.
    - destruct IH as (ss & E1 & l & E2 & H).
      { intros; apply Hp'; auto. right; auto. }
      { intros; apply Hnw'; auto. right; auto. }
      cbn [map mapM]. rewrite E1, E2. clear E1 E2.
      specialize (Hnw' y ltac:(left)). specialize (fun E => Hp' E y ltac:(left)).
      unfold opnd in *. destruct (dict d1 !! str y) as [[s0|h|l0|s0]|] eqn:Ey; try congruence; cbn.
      + exists (s0 :: ss). split; auto. exists ([s0] :: l). split; auto.
        intros x s. specialize (H x). cbn [concat app].
        destruct op; cbn [in_result] in *.
        * specialize (H ∅). split; intros [u [Hu Hx]].
          -- apply elem_of_cons in Hu as [->|Hu]; [exists s; set_solver|].
             apply elem_of_cons in Hu as [->|Hu]; [exists s0; set_solver|].
             destruct (proj1 H) as [w [Hw1 Hw2]]; [exists u; set_solver|]. exists w. set_solver.
          -- apply elem_of_cons in Hu as [->|Hu]; [exists s; set_solver|].
             apply elem_of_cons in Hu as [->|Hu]; [exists s0; set_solver|].
             destruct (proj2 H) as [w [Hw1 Hw2]]; [exists u; set_solver|]. exists w. set_solver.
        * specialize (H s). split; intros Hx u Hu.
          -- apply elem_of_cons in Hu as [->|Hu]; [apply Hx; left|].
             apply elem_of_cons in Hu as [->|Hu]; [apply Hx; right; left|].
             apply (proj1 H); [|right; auto]. intros w Hw. apply Hx. set_solver.
          -- apply elem_of_cons in Hu as [->|Hu]; [apply Hx; left|].
             apply elem_of_cons in Hu as [->|Hu]; [apply Hx; right; left|].
             apply (proj2 H); [|right; auto]. intros w Hw. apply Hx. set_solver.
        * specialize (H s). set_solver.
      + exists (∅ :: ss). split; auto. exists ([] :: l). split; auto.
        intros x s. specialize (H x). cbn [concat app].
        destruct op; cbn [in_result] in *.
        * specialize (H s). split; intros [u [Hu Hx]].
          -- destruct (proj1 H) as [w [Hw1 Hw2]]; [exists u; set_solver|]. exists w. set_solver.
          -- destruct (proj2 H) as [w [Hw1 Hw2]]; [exists u; set_solver|]. exists w. set_solver.
        * exfalso. apply Hp'; auto.
        * specialize (H s). set_solver. }
  destruct Hss as (ss & -> & l & El & Hin).
  assert (Hgo : forall s, wp (eq now) d1
      (old <- dict_get (str dst) ;;
       sets <- read_sets [] (map str ks) [] ;;
       let '(reply, destSet) :=
         match sets with
         | inr _ => (err_wrong_kind, ∅)
         | inl sets => let res := set_op op s sets in (RInt (set_len res), res)
         end in
       dict_set (str dst) (VSet destSet) ;;;
       (match old with Some _ => delete_expire (str dst) | None => Ret false end) ;;;
       Ret reply) (fun out => exists r d', out = Done r d' /\ Inv d' /\
         exists s', (forall x, x ∈ s' <-> in_result op x s ss) /\
           r = RInt (card s') /\ upd (view now d) (view now d') (str dst) (Some (VSet s', None)))).
  { intros s. rewrite wp_dict_get. apply read_sets_wp. rewrite El. cbn [app]. cbv zeta. wps.
    assert (Hfin : forall d', Inv d' -> raw d' (str dst) = Some (VSet (set_op op s (concat l)), None) ->
       (forall k', k' <> str dst -> raw d' k' = raw d1 k') ->
       exists r d'', Done (RInt (set_len (set_op op s (concat l)))) d' = Done r d'' /\ Inv d'' /\
         exists s', (forall x, x ∈ s' <-> in_result op x s ss) /\
           r = RInt (card s') /\ upd (view now d) (view now d'') (str dst) (Some (VSet s', None))).
    { intros d' HI' Hr' Hf'. eexists _, _. split; [reflexivity|]. split; auto.
      exists (set_op op s (concat l)). split; [intros; rewrite set_op_spec; apply Hin|]. split; auto. split.
      - rewrite view_raw, Hr'. auto.
      - intros k' Hk'. rewrite view_raw, Hf', <- view_raw by auto. apply Hv. }
    destruct (dict d1 !! str dst) eqn:Ed; wps; apply Hfin; auto with inv.
    - rawsimp. auto.
    - intros; rawsimp; auto.
    - rewrite raw_put, decide_True by auto. rewrite raw_None; auto. 
    - intros; rawsimp; auto. }
  specialize (Hop k ltac:(left)). specialize (Hnw k ltac:(left)). rewrite <- Hop in Hnw.
  unfold opnd in Hnw |- *. destruct (dict d1 !! str k) as [[]|] eqn:E; try congruence; apply Hgo.
Qed.
Lemma setopstore_ok op n dst k ks : named n (setopstore_word op) ->
  implements_on (store_pre op k ks) (n :: dst :: k :: ks)
    (setopstore_spec op (str dst) (str k) (map str ks)).
Proof.
  intros Hn. apply impl_multi. intros now d HI [Hu Hp].
  destruct op; cbn [setopstore_word] in Hn; erewrite (exec_named _ _ _ _ Hn) by reflexivity; apply setopstore_wp; auto;
    intros x Hx; apply Hu; auto.
Qed.

(** ** SMOVE *)
Lemma sdrop_wp2 now d k s dl (f : unit -> prog rdata) Q :
  Inv d -> raw d k = Some (VSet s, dl) ->
  (forall d', Inv d' -> raw d' k = keep_set s dl ->
     (forall k', k' <> k -> raw d' k' = raw d k') ->
     wp (eq now) d' (f tt) Q) ->
  wp (eq now) d (pbind (sdrop_if_empty k s) f) Q.
Proof.
  intros HI Hr H. pose proof (raw_dict _ _ _ Hr) as HD. pose proof (raw_exps _ _ _ HI Hr) as HE. cbn in HD, HE.
  unfold sdrop_if_empty, set_len, keep_set in *. destruct (decide (s = ∅)) as [->|Hs].
  - rewrite size_empty. change (Z.of_nat 0 =? 0) with true. wps. apply H; auto with inv.
    + rawsimp. auto.
    + intros; rawsimp; auto.
  - replace (Z.of_nat (size s) =? 0) with false.
    2:{ symmetry. apply Z.eqb_neq. intros E. apply Hs. apply leibniz_equiv. apply size_empty_inv. lia. }
    wps. apply H; auto.
Qed.
Lemma live_keep_set now d k v dl s : view now d k = Some (v, dl) -> live now (keep_set s dl) = keep_set s dl.
Proof. intros H. unfold keep_set. destruct (decide _); auto. eapply live_as; eauto. Qed.
Lemma set_rem_snd s x : snd (set_rem s x) = s ∖ {[x]}.
Proof. rewrite set_rem_spec. auto. Qed.
Lemma set_add_snd s x : snd (set_add s x) = s ∪ {[x]}.
Proof. rewrite set_add_spec. auto. Qed.

Lemma smove_ok n a b m : named n "smove" ->
  implements [n; a; b; m] (smove_spec (str a) (str b) (str m)).
Proof.
  intros Hn. apply impl_multi. intros now d HI _. exec_cmd Hn. unfold smove_set. cbv zeta.
  eapply (wp_purge2 now d (str a) (str b)); [assumption| | |reflexivity]; cbv beta iota.
  { intros d1 HI1 Hs1 Hv. wps. eexists _, _. split; [reflexivity|]. split; auto.
    unfold smove_spec. rewrite Hv. split; auto. intros k. apply (sim_view now); auto; lia. }
  intros d2 e2 HI2 Hs Hra Hrb He2.
  assert (Hsame : same (view now d) (view now d2)) by (intros k; apply (sim_view now); auto; lia).
  set (A := str a) in *. set (Bk := str b) in *. set (x := str m).
  unfold smove_spec. destruct e2.
  { rewrite (He2 eq_refl). wps. eexists _, _. split; [reflexivity|]. split; auto.
    destruct (view now d A) as [[[] ?]|]; auto. }
  clear He2.
  pose proof (raw_dict _ _ _ Hra) as HDa. pose proof (raw_exps _ _ _ HI2 Hra) as HEa.
  pose proof (raw_dict _ _ _ Hrb) as HDb. pose proof (raw_exps _ _ _ HI2 Hrb) as HEb.
  destruct (view now d A) as [[va da]|] eqn:Hva.
  2:{ wps. eexists _, _. split; [reflexivity|]. split; auto. }
  destruct va as [s|h|l|s].
  1,2,3: wps; eexists _, _; (split; [reflexivity|]); (split; [auto|]); auto.
  (* the source when nothing is moved *)
  assert (Hun : forall d', raw d' A = keep_set s da -> (forall k', k' <> A -> raw d' k' = raw d2 k') ->
     same (view now d) (view now d') \/ (s = ∅ /\ upd (view now d) (view now d') A None)).
  { intros d' Hr' Hf'. unfold keep_set in Hr'. destruct (decide (s = ∅)) as [Es|Es].
    - right. split; auto. split; [rewrite view_raw, Hr'; auto|].
      intros k Hk. rewrite view_raw, Hf', <- view_raw by auto. apply Hsame.
    - left. intros k. destruct (decide (k = A)) as [->|Hk].
      + rewrite view_raw, Hr', Hva. eapply live_as; eauto.
      + rewrite view_raw, Hf', <- view_raw by auto. apply Hsame. }
  wps. destruct (view now d Bk) as [[vb db0]|] eqn:Hvb.
  2:{ wps. eapply sdrop_wp2; [assumption|eassumption|]. intros d' HI' Hr' Hf'. wps.
      eexists _, _. split; [reflexivity|]. split; auto. }
  destruct vb as [s'|h'|l'|t].
  1,2,3: wps; (eapply sdrop_wp2; [assumption|eassumption|]); intros d' HI' Hr' Hf'; wps;
      eexists _, _; (split; [reflexivity|]); (split; [auto|]); auto.
  wps. destruct (decide (x ∈ s)) as [Hx|Hx].
  2:{ rewrite bool_decide_eq_false_2 by auto. wps.
      eapply sdrop_wp2; [assumption|eassumption|]. intros d' HI' Hr' Hf'. wps.
      eexists _, _. split; [reflexivity|]. split; auto. }
  rewrite bool_decide_eq_true_2 by auto. rewrite set_rem_snd. wps.
  destruct (decide (A = Bk)) as [E|E].
  - clear HDb HEb Hrb. rewrite <- E. rewrite <- E, Hva in Hvb. injection Hvb as <- <-. dbsimp. wps. rewrite set_add_snd.
    wps. replace (s ∖ {[x]} ∪ {[x]}) with s.
    2:{ apply leibniz_equiv. intros y. destruct (decide (y = x)); set_solver. }
    eapply sdrop_wp2; [auto with inv|rawsimp; reflexivity|].
    intros d' HI' Hr' Hf'. wps. eexists _, _. split; [reflexivity|]. split; auto. split; auto.
    unfold keep_set in Hr'. rewrite decide_False in Hr' by set_solver.
    intros k. destruct (decide (k = A)) as [->|Hk].
    + rewrite view_raw, Hr', Hva. eapply live_as; eauto.
    + rewrite view_raw, Hf' by auto. rawsimp. rewrite <- view_raw. apply Hsame.
  - assert (E' : Bk <> A) by auto. dbsimp. wps. rewrite set_add_snd. wps.
    eapply sdrop_wp2; [auto with inv|rawsimp; reflexivity|].
    intros d' HI' Hr' Hf'. wps. eexists _, _. split; [reflexivity|]. split; auto. split; auto.
    split; [|split].
    + rewrite view_raw, Hr'. eapply live_keep_set; eauto.
    + rewrite view_raw, Hf' by auto. rawsimp. eapply live_as; eauto.
    + intros k Hka Hkb. rewrite view_raw, Hf' by auto. rawsimp. rewrite <- view_raw. apply Hsame.
Qed.

End WithParams.
