(** Proofs about memdb/list.go. *)
From Verif Require Import WpTac StringsProofs.

Section WithParams.
Context {P : Setup}.

Lemma drop_keep l dl : (zlen l =? 0) = match l with [] => true | _ => false end /\
  keep_list l dl = if zlen l =? 0 then None else Some (VList l, dl).
Proof. destruct l; auto. Qed.

(** Common proof steps for commands that start by purging and then act on one list. *)
Tactic Notation "lcmd" hyp(Hn) reference(f) :=
  intros now d HI Hpre; exec_cmd Hn; unfold f; cbv zeta.
Ltac lcases :=
  purge_k;
  match goal with
  | |- context [if ?b then _ else _] => is_var b; destruct b;
      [match goal with Hb : true = true -> _ |- _ => rewrite (Hb eq_refl) in * end; wps|]
  | _ => idtac
  end.
Ltac lsplit := unfold list_read, list_update; ent; wps; [match goal with v : value |- _ => destruct v end|]; wps.

(** ** Pushing *)
Lemma push_all_pushed left xs l : push_all left l xs = pushed left xs l.
Proof.
  unfold push_all, pushed. revert l. induction xs as [|x xs IH]; intros l; destruct left; cbn [fold_left at_end rev].
  - reflexivity.
  - apply app_nil_r.
  - rewrite <- IH. rewrite <- app_assoc. reflexivity.
  - rewrite <- IH. rewrite <- app_assoc. reflexivity.
Qed.
Lemma push_wp left now d n k xs : Inv d -> xs <> [] ->
  wp (eq now) d (push_list left (n :: k :: xs))
   (fun out => exists r d', out = Done r d' /\ Inv d' /\
      (r, raw d' (str k)) = push_spec left xs now (view now d (str k)) /\
      forall k', k' <> str k -> raw d' k' = raw d k').
Proof.
  intros HI Hx. destruct xs as [|x xs]; [congruence|]. unfold push_list, push_spec. cbv zeta.
  purge_k. rewrite <- push_all_pushed. lsplit; cbn [on_list]; rewrite <- ?push_all_pushed; fin.
Qed.
Lemma lpush_ok n k xs : named n "lpush" -> xs <> [] ->
  implements (n :: k :: xs) (single_fun (str k) (push_spec true xs)).
Proof. intros Hn Hx. apply impl_single_fun. lcmd Hn lpush_list. apply push_wp; auto. Qed.
Lemma rpush_ok n k xs : named n "rpush" -> xs <> [] ->
  implements (n :: k :: xs) (single_fun (str k) (push_spec false xs)).
Proof. intros Hn Hx. apply impl_single_fun. lcmd Hn rpush_list. apply push_wp; auto. Qed.

Lemma pushx_wp left now d n k xs : Inv d -> xs <> [] ->
  wp (eq now) d (pushx_list left (n :: k :: xs))
   (fun out => exists r d', out = Done r d' /\ Inv d' /\
      (r, raw d' (str k)) = pushx_spec left xs now (view now d (str k)) /\
      forall k', k' <> str k -> raw d' k' = raw d k').
Proof.
  intros HI Hx. destruct xs as [|x xs]; [congruence|]. unfold pushx_list, pushx_spec. cbv zeta.
  lcases; [fin|]. lsplit; cbn [on_list]; rewrite <- ?push_all_pushed; fin.
Qed.
Lemma lpushx_ok n k xs : named n "lpushx" -> xs <> [] ->
  implements (n :: k :: xs) (single_fun (str k) (pushx_spec true xs)).
Proof. intros Hn Hx. apply impl_single_fun. lcmd Hn lpushx_list. apply pushx_wp; auto. Qed.
Lemma rpushx_ok n k xs : named n "rpushx" -> xs <> [] ->
  implements (n :: k :: xs) (single_fun (str k) (pushx_spec false xs)).
Proof. intros Hn Hx. apply impl_single_fun. lcmd Hn rpushx_list. apply pushx_wp; auto. Qed.

(** ** Popping *)
Lemma drop_if_empty_wp now d k l dl (f : unit -> prog rdata) Q d0 :
  d = mut k (VList l) d0 -> Inv d0 -> raw d0 k = Some (VList l, dl) \/ (exists l0, raw d0 k = Some (VList l0, dl)) ->
  (forall d', Inv d' -> raw d' k = keep_list l dl -> (forall k', k' <> k -> raw d' k' = raw d0 k') ->
     wp (eq now) d' (f tt) Q) ->
  wp (eq now) d (pbind (drop_if_empty k l) f) Q.
Proof.
  intros -> HI Hr H. assert (Hr' : exists v, raw d0 k = Some (v, dl)) by (destruct Hr as [?|[? ?]]; eauto).
  clear Hr. destruct Hr' as [v Hr]. pose proof (raw_dict _ _ _ Hr) as HD. pose proof (raw_exps _ _ _ HI Hr) as HE.
  cbn in HD, HE.
  unfold drop_if_empty. destruct (drop_keep l dl) as [E1 E2]. rewrite E1. destruct l; wps.
  - apply H; auto with inv.
    + rawsimp. auto.
    + intros; rawsimp; auto.
  - apply H; auto with inv.
    + rawsimp. auto.
    + intros; rawsimp; auto.
Qed.

Lemma pop_wp left now d k : Inv d ->
  wp (eq now) d (pop_run left k (Some 1))
   (fun out => exists r d', out = Done r d' /\ Inv d' /\
      pop_spec left now (view now d (str k)) r (raw d' (str k)) /\
      forall k', k' <> str k -> raw d' k' = raw d k').
Proof.
  intros HI. unfold pop_run, pop_spec. cbv zeta. lcases; [fin; auto|].
  lsplit; try (fin; auto; fail).
  change (1 =? 1) with true. cbv iota.
  assert (Hpop : (if left then pop_left l else pop_right l) = None /\ l = [] \/
     exists x l', (if left then pop_left l else pop_right l) = Some (x, l') /\ l = at_end left x l').
  { destruct left; unfold pop_left, pop_right, at_end.
    - destruct l as [|x l]; eauto 6.
    - destruct (rev l) as [|x r] eqn:E.
      + left. split; auto. rewrite <- (rev_involutive l), E. auto.
      + right. exists x, (rev r). split; auto. rewrite <- (rev_involutive l), E. auto. }
  destruct Hpop as [[-> ->]|(x & l' & -> & ->)].
  - unfold drop_if_empty. change (zlen [] =? 0) with true. wps.
    fin. auto.
  - wps. eapply drop_if_empty_wp; [reflexivity|assumption|right; eauto|]. intros d' HI' Hr' Hfr'.
    wps. eexists _, _. split; [reflexivity|]. split; auto. split.
    + right. exists x, l'. auto.
    + intros k' Hk'. rewrite Hfr' by auto. auto.
Qed.
Lemma popn_wp left now d k c : Inv d -> 1 < c ->
  wp (eq now) d (pop_run left k (Some c))
   (fun out => exists r d', out = Done r d' /\ Inv d' /\
      popn_spec left c now (view now d (str k)) r (raw d' (str k)) /\
      forall k', k' <> str k -> raw d' k' = raw d k').
Proof.
  intros HI Hc. unfold pop_run, popn_spec. cbv zeta. lcases; [fin; auto|].
  lsplit; try (fin; auto; fail).
  replace (c =? 1) with false by (symmetry; apply Z.eqb_neq; lia).
  set (m := Z.to_nat (if zlen l <? c then zlen l else c)).
  assert (Hm : Z.of_nat m = Z.min c (zlen l)).
  { unfold m, zlen. destruct (Z.ltb_spec (Z.of_nat (length l)) c); lia. }
  assert (Hml : (m <= length l)%nat) by (unfold zlen in Hm; lia).
  destruct left.
  - wps. eapply drop_if_empty_wp; [reflexivity|assumption|right; eauto|]. intros d' HI' Hr' Hfr'.
    wps. eexists _, _. split; [reflexivity|]. split; auto. split.
    + exists (take m l), (drop m l). rewrite take_drop. split; auto. split; auto.
      unfold zlen at 1. rewrite take_length. lia.
    + intros k' Hk'. rewrite Hfr' by auto. auto.
  - wps. eapply drop_if_empty_wp; [reflexivity|assumption|right; eauto|]. intros d' HI' Hr' Hfr'.
    wps. eexists _, _. split; [reflexivity|]. split; auto. split.
    + exists (take m (rev l)), (rev (drop m (rev l))). rewrite <- rev_app_distr, take_drop, rev_involutive.
      split; auto. split; auto.
      unfold zlen at 1. rewrite take_length, rev_length. lia.
    + intros k' Hk'. rewrite Hfr' by auto. auto.
Qed.

Lemma lpop_ok n k : named n "lpop" -> implements [n; k] (single (str k) (pop_spec true)).
Proof. intros Hn. apply impl_single. lcmd Hn lpop_list. apply pop_wp; auto. Qed.
Lemma rpop_ok n k : named n "rpop" -> implements [n; k] (single (str k) (pop_spec false)).
Proof. intros Hn. apply impl_single. lcmd Hn rpop_list. apply pop_wp; auto. Qed.
Lemma lpop1_ok n k a : named n "lpop" -> atoi (str a) = Some 1 ->
  implements [n; k; a] (single (str k) (pop_spec true)).
Proof. intros Hn Ha. apply impl_single. lcmd Hn lpop_list. unfold pop_list. rewrite Ha. apply pop_wp; auto. Qed.
Lemma rpop1_ok n k a : named n "rpop" -> atoi (str a) = Some 1 ->
  implements [n; k; a] (single (str k) (pop_spec false)).
Proof. intros Hn Ha. apply impl_single. lcmd Hn rpop_list. unfold pop_list. rewrite Ha. apply pop_wp; auto. Qed.
Lemma lpopn_ok n k a c : named n "lpop" -> atoi (str a) = Some c -> 1 < c ->
  implements [n; k; a] (single (str k) (popn_spec true c)).
Proof.
  intros Hn Ha Hc. apply impl_single. lcmd Hn lpop_list. unfold pop_list. rewrite Ha.
  replace (c <=? 0) with false by (symmetry; apply Z.leb_gt; lia). apply popn_wp; auto.
Qed.
Lemma rpopn_ok n k a c : named n "rpop" -> atoi (str a) = Some c -> 1 < c ->
  implements [n; k; a] (single (str k) (popn_spec false c)).
Proof.
  intros Hn Ha Hc. apply impl_single. lcmd Hn rpop_list. unfold pop_list. rewrite Ha.
  replace (c <=? 0) with false by (symmetry; apply Z.leb_gt; lia). apply popn_wp; auto.
Qed.

(** ** Reading *)
Lemma llen_ok n k : named n "llen" -> implements [n; k] (single_fun (str k) llen_spec).
Proof.
  intros Hn. apply impl_single_fun. lcmd Hn llen_list. lcases; [fin|]. lsplit; fin.
Qed.

Lemma list_index_spec l i : i <> min_int -> min_int <= i <= max_int ->
  match list_index l i with
  | LI_none => at_index l i = None
  | LI_crash => False
  | LI_at m => exists v, l !! m = Some v /\ at_index l i = Some v /\ Z.of_nat m = from_end (zlen l) i
  end.
Proof.
  intros Hi Hr. unfold list_index, at_index, from_end, zlen, min_int, max_int in *.
  destruct (Z.ltb_spec i 0).
  - rewrite wrap64_small by (unfold min_int, max_int; lia).
    destruct (Z.ltb_spec (Z.of_nat (length l)) (- i)).
    + destruct (Z.ltb_spec (Z.of_nat (length l) + i) 0); [auto|lia].
    + destruct (Z.ltb_spec (- i) 0); [lia|].
      destruct (Z.ltb_spec (Z.of_nat (length l) + i) 0); [lia|].
      destruct (lookup_lt_is_Some_2 l (Z.to_nat (Z.of_nat (length l) - - i))) as [v Hv]; [lia|].
      exists v. split; auto. split; [|lia].
      replace (Z.of_nat (length l) + i) with (Z.of_nat (length l) - - i) by lia. auto.
  - destruct (Z.leb_spec (Z.of_nat (length l)) i).
    + destruct (Z.ltb_spec i 0); [lia|]. apply lookup_ge_None_2. lia.
    + destruct (lookup_lt_is_Some_2 l (Z.to_nat i)) as [v Hv]; [lia|].
      exists v. split; auto. destruct (Z.ltb_spec i 0); [lia|]. split; auto. lia.
Qed.
Lemma lindex_ok n k a i : named n "lindex" -> atoi (str a) = Some i -> i <> min_int ->
  implements [n; k; a] (single_fun (str k) (lindex_spec i)).
Proof.
  intros Hn Ha Hi. apply impl_single_fun. lcmd Hn lindex_list. lcases; [fin|]. rewrite Ha. lsplit; try (fin; fail).
  unfold lindex_spec. cbn [on_list]. pose proof (list_index_spec l i Hi (atoi_range _ _ Ha)) as H.
  destruct (list_index l i) as [|m|].
  - rewrite H. wps. fin.
  - destruct H as (v & Hv & -> & _). rewrite Hv. wps. fin.
  - destruct H.
Qed.

Lemma list_range_slice l a b : list_range l a b = slice l a b.
Proof.
  unfold slice. rewrite pick_interval. unfold list_range, from_end.
  set (x := if a <? 0 then zlen l + a else a). set (y := if b <? 0 then zlen l + b else b).
  assert (Hz : 0 <= zlen l) by (unfold zlen; lia).
  destruct (Z.ltb_spec y x), (Z.leb_spec (zlen l) x), (Z.ltb_spec y 0); cbn [orb];
    try (replace (Z.to_nat (Z.min y (zlen l - 1) - Z.max x 0 + 1)) with 0%nat by lia; reflexivity).
  replace (if x <? 0 then 0 else x) with (Z.max x 0) by (destruct (Z.ltb_spec x 0); lia).
  replace (if zlen l <=? y then zlen l - 1 else y) with (Z.min y (zlen l - 1))
    by (destruct (Z.leb_spec (zlen l) y); lia). auto.
Qed.
Lemma lrange_ok n k a b i j : named n "lrange" -> atoi (str a) = Some i -> atoi (str b) = Some j ->
  implements [n; k; a; b] (single_fun (str k) (lrange_spec i j)).
Proof.
  intros Hn Ha Hb0. apply impl_single_fun. lcmd Hn lrange_list. lcases; [fin|]. rewrite Ha, Hb0.
  lsplit; try (fin; fail). rewrite list_range_slice. fin.
Qed.

(** ** Updating *)
Lemma ltrim_ok n k a b i j : named n "ltrim" -> atoi (str a) = Some i -> atoi (str b) = Some j ->
  implements_when (fun now S => list_nonempty (str k) now S \/ 0 <= i \/ j < 0) [n; k; a; b]
    (single_fun (str k) (ltrim_spec i j)).
Proof.
  intros Hn Ha Hb0. apply impl_single_fun. lcmd Hn ltrim_list. lcases; [fin|]. rewrite Ha, Hb0.
  lsplit; try (fin; fail). unfold list_trim.
  match goal with |- context [if ?b then None else Some _] => assert (Hne : b = false) end.
  { destruct Hpre as [Hp|Hp].
    - destruct l; [exfalso; eapply Hp; eauto|]. destruct (zlen (v :: l) =? 0) eqn:E; auto.
      apply Z.eqb_eq in E. unfold zlen in E. cbn [length] in E. lia.
    - destruct (i <? 0) eqn:E1, (0 <=? j) eqn:E2; rewrite ?andb_false_r; auto; lia. }
  rewrite Hne. wps. rewrite list_range_slice.
  eapply drop_if_empty_wp; [reflexivity|assumption|right; eauto|]. intros d' HI' Hr' Hfr'.
  wps. eexists _, _. split; [reflexivity|]. split; auto. split.
  + unfold ltrim_spec. cbn [on_list]. rewrite Hr'. auto.
  + intros k' Hk'. rewrite Hfr' by auto. auto.
Qed.
Lemma lset_ok n k a i v : named n "lset" -> atoi (str a) = Some i -> i <> min_int ->
  implements [n; k; a; v] (single (str k) (lset_spec i v)).
Proof.
  intros Hn Ha Hi. apply impl_single. lcmd Hn lset_list. unfold lset_spec. lcases; [fin; auto|]. rewrite Ha.
  unfold list_update. ent; wps; [destruct v0|]; wps; try (fin; auto; fail).
  pose proof (list_index_spec l i Hi (atoi_range _ _ Ha)) as H.
  destruct (list_index l i) as [|m|].
  - rewrite H. wps. fin. auto.
  - destruct H as (x & Hx & -> & Hm). wps. fin. split; auto.
    exists (<[m:=v]> l). split; auto. split; [apply insert_length|].
    intros j. rewrite <- Hm. destruct (decide (Z.of_nat j = Z.of_nat m)) as [E|E].
    + apply Nat2Z.inj in E as ->. apply list_lookup_insert. eapply lookup_lt_Some; eauto.
    + apply list_lookup_insert_ne. intros ->; auto.
  - destruct H.
Qed.

Lemma veq_matches x v : veq x v = matches v x.
Proof.
  reflexivity.
Qed.
Lemma zlen_cons {A} (x : A) l : zlen (x :: l) = zlen l + 1.
Proof. unfold zlen. simpl. lia. Qed.
Lemma zlen_app {A} (l1 l2 : list A) : zlen (l1 ++ l2) = zlen l1 + zlen l2.
Proof. unfold zlen. rewrite app_length. lia. Qed.
Lemma zlen_nonneg {A} (l : list A) : 0 <= zlen l.
Proof. unfold zlen. lia. Qed.
Lemma count_cons v x l : count_matches v (x :: l) = count_matches v l + if matches v x then 1 else 0.
Proof. unfold count_matches. simpl. destruct (matches v x); rewrite ?zlen_cons; lia. Qed.
Lemma count_app v l1 l2 : count_matches v (l1 ++ l2) = count_matches v l1 + count_matches v l2.
Proof. unfold count_matches. rewrite List.filter_app, zlen_app. auto. Qed.
Lemma count_nonneg v l : 0 <= count_matches v l.
Proof. apply zlen_nonneg. Qed.
Lemma count_without v l : count_matches v l = zlen l - zlen (without v l).
Proof.
  induction l as [|x l IH]; auto. rewrite count_cons, IH. unfold without. simpl.
  destruct (matches v x); simpl; rewrite ?zlen_cons; lia.
Qed.
Lemma count_rev v l : count_matches v (rev l) = count_matches v l.
Proof.
  induction l as [|x l IH]; auto. simpl. rewrite count_app, IH, !count_cons. unfold count_matches. simpl.
  unfold zlen; simpl. lia.
Qed.
Lemma count_none_without v l : count_matches v l = 0 -> without v l = l.
Proof.
  induction l as [|x l IH]; auto. rewrite count_cons. pose proof (count_nonneg v l).
  unfold without in *. simpl. destruct (matches v x); simpl; [lia|]. intros. f_equal. apply IH. lia.
Qed.
Lemma without_rev v l : without v (rev l) = rev (without v l).
Proof.
  induction l as [|x l IH]; auto. simpl. unfold without in *. rewrite List.filter_app, IH. simpl.
  destruct (matches v x); simpl; auto. apply app_nil_r.
Qed.

Lemma remove_upto_spec l v : forall n, 0 <= n -> exists l1 l2,
  l = l1 ++ l2 /\ count_matches v l1 = Z.min n (count_matches v l) /\
  remove_upto l v n = (count_matches v l1, without v l1 ++ l2).
Proof.
  induction l as [|x l IH]; intros n Hn; cbn [remove_upto].
  - exists [], []. split; auto. split; auto. unfold count_matches, zlen; simpl. lia.
  - destruct (Z.leb_spec n 0).
    + exists [], (x :: l). split; auto. split; auto. unfold count_matches at 1, zlen; simpl.
      pose proof (count_nonneg v (x :: l)). lia.
    + rewrite veq_matches. destruct (matches v x) eqn:Hx.
      * destruct (IH (n - 1)) as (l1 & l2 & -> & H1 & ->); [lia|].
        exists (x :: l1), l2. split; auto. rewrite count_cons, (count_cons v x (l1 ++ l2)), Hx.
        split; [lia|]. unfold without. simpl. rewrite Hx. auto.
      * destruct (IH n) as (l1 & l2 & -> & H1 & ->); [lia|].
        exists (x :: l1), l2. split; auto. rewrite count_cons, (count_cons v x (l1 ++ l2)), Hx.
        split; [lia|]. unfold without. simpl. rewrite Hx. simpl. do 2 f_equal. lia.
Qed.
Lemma count_le v l : count_matches v l <= zlen l.
Proof. rewrite count_without. pose proof (zlen_nonneg (without v l)). lia. Qed.
Lemma list_rem_spec l v c : c <> min_int -> min_int <= c <= max_int ->
  lrem_result c v l (snd (list_rem l v c)) /\ fst (list_rem l v c) = zlen l - zlen (snd (list_rem l v c)).
Proof.
  intros Hc Hr. unfold list_rem, lrem_result.
  destruct (Z.eqb_spec (zlen l) 0) as [E|E].
  { destruct l; [|unfold zlen in E; simpl in E; lia]. cbn [fst snd]. split; [|lia].
    destruct (c =? 0); auto. exists [], []. split; auto. unfold count_matches, zlen; simpl.
    destruct (0 <? c) eqn:Ec; split; auto; [apply Z.ltb_lt in Ec|apply Z.ltb_ge in Ec]; lia. }
  pose proof (zlen_nonneg l).
  destruct (Z.eqb_spec c 0) as [->|Hc0].
  - replace (0 <? zlen l) with true by (symmetry; apply Z.ltb_lt; lia).
    destruct (remove_upto_spec l v (zlen l)) as (l1 & l2 & El & H1 & ->); [lia|]. cbn [fst snd].
    assert (E2 : count_matches v l2 = 0).
    { pose proof (count_le v l). rewrite El, count_app in *. lia. }
    rewrite El, count_without. split.
    + unfold without. rewrite List.filter_app. fold (without v l1) (without v l2). rewrite (count_none_without v l2); auto.
    + rewrite !zlen_app. lia.
  - destruct (Z.ltb_spec 0 c).
    + destruct (remove_upto_spec l v c) as (l1 & l2 & El & H1 & ->); [lia|]. cbn [fst snd]. split.
      * exists l1, l2. auto.
      * rewrite El, count_without, !zlen_app. lia.
    + unfold min_int, max_int in *. rewrite wrap64_small by (unfold min_int, max_int; lia).
      destruct (remove_upto_spec (rev l) v (- c)) as (l1 & l2 & El & H1 & ->); [lia|]. cbn [fst snd].
      assert (El' : l = rev l2 ++ rev l1) by (rewrite <- rev_app_distr, <- El, rev_involutive; auto).
      rewrite count_rev in H1. split.
      * exists (rev l2), (rev l1). split; auto. rewrite rev_app_distr, without_rev, count_rev. auto.
      * rewrite El', count_without. unfold zlen. rewrite !rev_length, !app_length, !rev_length. lia.
Qed.
Lemma lrem_ok n k a c v : named n "lrem" -> atoi (str a) = Some c -> c <> min_int ->
  implements [n; k; a; v] (single (str k) (lrem_spec c v)).
Proof.
  intros Hn Ha Hi. apply impl_single. lcmd Hn lrem_list. unfold lrem_spec. lcases; [fin; auto|]. rewrite Ha.
  unfold list_update. ent; wps; [destruct v0|]; wps; try (fin; auto; fail).
  destruct (list_rem_spec l v c Hi (atoi_range _ _ Ha)) as [H1 H2].
  destruct (list_rem l v c) as [m l']. cbn [fst snd] in *. wps.
  eapply drop_if_empty_wp; [reflexivity|assumption|right; eauto|]. intros d' HI' Hr' Hfr'.
  wps. eexists _, _. split; [reflexivity|]. split; auto. split.
  + exists l'. rewrite H2. auto.
  + intros k' Hk'. rewrite Hfr' by auto. auto.
Qed.

(** ** LINSERT *)
Lemma existsb_count v l : existsb (fun x => veq x v) l = negb (count_matches v l =? 0).
Proof.
  induction l as [|x l IH]; auto. cbn [existsb]. rewrite IH, count_cons, veq_matches.
  pose proof (count_nonneg v l). destruct (matches v x); simpl.
  - symmetry. apply negb_true_iff, Z.eqb_neq. lia.
  - rewrite Z.add_0_r. auto.
Qed.
Lemma insert_flat (g : val -> list val) l pivot :
  concat (map (fun x => if veq x pivot then g x else [x]) l) =
  flat_map (fun x => if matches pivot x then g x else [x]) l.
Proof. induction l as [|x l IH]; auto. cbn [map concat flat_map]. rewrite IH, veq_matches. auto. Qed.
Lemma linsert_before_ok n k w pivot v : named n "linsert" -> named w "before" ->
  implements [n; k; w; pivot; v] (single_fun (str k) (linsert_spec true pivot v)).
Proof.
  intros Hn Hw. apply impl_single_fun. lcmd Hn linsert_list. unfold named in Hw.
  lcases; [fin|]. rewrite Hw. beqs. lsplit; try (fin; fail). unfold linsert_spec, list_insert_before. cbn [on_list].
  rewrite existsb_count. destruct (count_matches pivot l =? 0); cbn [negb]; wps; [fin|].
  rewrite insert_flat. fin.
Qed.
Lemma linsert_after_ok n k w pivot v : named n "linsert" -> named w "after" -> str v <> str pivot ->
  implements [n; k; w; pivot; v] (single_fun (str k) (linsert_spec false pivot v)).
Proof.
  intros Hn Hw Hv. apply impl_single_fun. lcmd Hn linsert_list. unfold named in Hw.
  lcases; [fin|]. rewrite Hw. beqs. lsplit; try (fin; fail). unfold linsert_spec, list_insert_after. cbn [on_list].
  replace (veq v pivot) with false.
  2:{ symmetry. rewrite veq_matches. apply bool_decide_eq_false. auto. }
  rewrite andb_false_r, existsb_count. destruct (count_matches pivot l =? 0); cbn [negb]; wps; [fin|].
  rewrite insert_flat. fin.
Qed.
Lemma flat_map_none (g : val -> list val) l pivot : count_matches pivot l = 0 ->
  flat_map (fun x => if matches pivot x then g x else [x]) l = l.
Proof.
  induction l as [|x l IH]; auto. rewrite count_cons. pose proof (count_nonneg pivot l).
  cbn [flat_map]. destruct (matches pivot x); [lia|]. intros. rewrite IH by lia. auto.
Qed.
Lemma split_unique l pivot : count_matches pivot l = 1 ->
  exists l1 x l2, l = l1 ++ x :: l2 /\ count_matches pivot l1 = 0 /\ matches pivot x = true /\
    count_matches pivot l2 = 0.
Proof.
  induction l as [|x l IH]; [discriminate|]. rewrite count_cons. destruct (matches pivot x) eqn:E.
  - intros. exists [], x, l. split; auto. split; auto. split; auto. lia.
  - intros. destruct IH as (l1 & y & l2 & -> & H1 & H2 & H3); [lia|].
    exists (x :: l1), y, l2. split; auto. rewrite count_cons, E. split; [lia|auto].
Qed.
(** When the pivot occurs at most once, this is Redis's LINSERT. *)
Lemma linsert_unique before pivot v now e r e' :
  (forall l dl, e = Some (VList l, dl) -> count_matches pivot l <= 1) ->
  (r, e') = linsert_spec before pivot v now e -> linsert_redis before pivot v now e r e'.
Proof.
  intros Hu. unfold linsert_spec, linsert_redis. destruct e as [[[]]|]; cbn [on_list]; try (intros [= -> ->]; auto; fail).
  specialize (Hu _ _ eq_refl). destruct (Z.eqb_spec (count_matches pivot l) 0); intros [= -> ->]; auto.
  right. pose proof (count_nonneg pivot l).
  destruct (split_unique l pivot) as (l1 & x & l2 & -> & H1 & H2 & H3); [lia|].
  exists l1, x, l2. split; auto. split; auto. split; auto.
  rewrite flat_map_app. cbn [flat_map]. rewrite H2, !flat_map_none by auto. split.
  - unfold zlen. rewrite !app_length. destruct before; simpl; f_equal; lia.
  - auto.
Qed.

(** ** LMOVE *)
End WithParams.
