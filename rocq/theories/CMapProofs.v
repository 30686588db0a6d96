(** The segmented map behaves like one finite map. *)
From Verif Require Export SpecCMap Seq.

Section CMapProofs.
Context {V : Type}.
Implicit Types (m : cmap V) (f : gmap bytes V).

Lemma nth_pos m k : 0 < zlen (table m) -> (Z.to_nat (key_pos m k) < length (table m))%nat.
Proof.
  intros H. unfold key_pos. pose proof (Z.mod_pos_bound (Z.of_N (fnv1a k)) (zlen (table m)) H). unfold zlen in *. lia.
Qed.
Lemma holds_seg m f k : holds m f -> exists s, seg_of m k = Some (Z.to_nat (key_pos m k), s) /\
  table m !! Z.to_nat (key_pos m k) = Some s /\ s !! k = f !! k.
Proof.
  intros (Hz & _ & H). destruct (lookup_lt_is_Some_2 (table m) _ (nth_pos m k (proj1 Hz))) as [s E].
  exists s. unfold seg_of. cbv zeta. rewrite E. split; auto. split; auto. rewrite (H _ _ E). rewrite decide_True; auto.
Qed.
Lemma key_pos_insert m p s c k : key_pos (mkCMap (<[p := s]> (table m)) c) k = key_pos m k.
Proof. unfold key_pos, zlen. cbn. rewrite insert_length. auto. Qed.

Lemma holds_new z : holds (new_cmap z : cmap V) ∅.
Proof.
  unfold holds, new_cmap. cbn. unfold zlen. rewrite replicate_length. unfold table_size, max_seg_size.
  split; [|split].
  - destruct ((z <=? 0) || (2 ^ 32 - 1 <=? z)) eqn:E; [rewrite Z2Nat.id; lia|].
    apply orb_false_elim in E as [E1 E2]. rewrite Z2Nat.id; lia.
  - rewrite map_size_empty. auto.
  - intros i s E k. apply lookup_replicate in E as [-> _]. rewrite !lookup_empty. case_decide; auto.
Qed.
Lemma holds_clear m f : holds m f -> holds (cm_clear m) ∅.
Proof. intros _. apply holds_new. Qed.

Lemma holds_set m f k v : holds m f -> exists n m', cm_set m k v = Some (n, m') /\
  n = (match f !! k with None => 1 | Some _ => 0 end) /\ holds m' (<[k := v]> f).
Proof.
  intros Hh. destruct (holds_seg m f k Hh) as (s & E & Et & Es). unfold cm_set. rewrite E, Es.
  destruct Hh as (Hz & Hc & H).
  assert (G : forall c, c = Z.of_nat (size (<[k := v]> f)) ->
    holds (mkCMap (<[Z.to_nat (key_pos m k) := <[k := v]> s]> (table m)) c) (<[k := v]> f)).
  { intros c Ec. split; [unfold zlen in *; cbn; rewrite insert_length; auto|]. split; [auto|].
    intros i s' Ei k'. rewrite key_pos_insert. cbn in Ei. apply list_lookup_insert_Some in Ei as [(<- & <- & _)|(Hi & Ei)].
    - destruct (decide (k' = k)) as [->|Hk]; [rewrite !lookup_insert, decide_True; auto|].
      rewrite !lookup_insert_ne by auto. apply (H _ _ Et).
    - rewrite (H _ _ Ei). case_decide as Hd; auto. rewrite lookup_insert_ne; auto. intros ->. contradiction. }
  destruct (f !! k) eqn:Ef; eexists _, _; (split; [reflexivity|]); (split; [auto|]); apply G.
  - rewrite map_size_insert_Some; eauto.
  - rewrite map_size_insert_None by auto. lia.
Qed.
Lemma holds_delete m f k : holds m f -> exists n m', cm_delete m k = Some (n, m') /\
  n = (match f !! k with None => 0 | Some _ => 1 end) /\ holds m' (delete k f).
Proof.
  intros Hh. destruct (holds_seg m f k Hh) as (s & E & Et & Es). unfold cm_delete. rewrite E, Es.
  destruct (f !! k) as [x|] eqn:Ef; eexists _, _; (split; [reflexivity|]); (split; [auto|]).
  - destruct Hh as (Hz & Hc & H). split; [unfold zlen in *; cbn; rewrite insert_length; auto|]. split.
    + cbn. rewrite map_size_delete_Some by eauto. assert (size f <> 0%nat) by (apply map_size_non_empty_iff; intros ->; rewrite lookup_empty in Ef; discriminate). lia.
    + intros i s' Ei k'. rewrite key_pos_insert. cbn in Ei. apply list_lookup_insert_Some in Ei as [(<- & <- & _)|(Hi & Ei)].
      * destruct (decide (k' = k)) as [->|Hk]; [rewrite !lookup_delete, decide_True; auto|].
        rewrite !lookup_delete_ne by auto. apply (H _ _ Et).
      * rewrite (H _ _ Ei). case_decide as Hd; auto. rewrite lookup_delete_ne; auto. intros ->. contradiction.
  - rewrite delete_notin; auto.
Qed.
Lemma holds_get m f k : holds m f -> cm_get m k = Some (f !! k).
Proof. intros Hh. destruct (holds_seg m f k Hh) as (s & E & Et & Es). unfold cm_get. rewrite E, Es. auto. Qed.

(** ** Keys *)
Lemma fill_app l : forall p q, length q = length l -> fill (p ++ q) (length p) l = Some (p ++ l).
Proof.
  induction l as [|x l IH]; intros p q Hq.
  - destruct q; [|discriminate]. auto.
  - destruct q as [|y q]; [discriminate|]. cbn [fill].
    destruct (Nat.ltb_spec (length p) (length (p ++ y :: q))) as [Hl|Hl]; [|rewrite app_length in Hl; cbn in Hl; lia].
    rewrite insert_app_r_alt, Nat.sub_diag by lia. cbn [insert list_insert].
    replace (p ++ x :: q) with ((p ++ [x]) ++ q) by (rewrite <- app_assoc; auto).
    replace (S (length p)) with (length (p ++ [x])) by (rewrite app_length; cbn; lia).
    rewrite IH by (cbn in Hq; lia). rewrite <- app_assoc. auto.
Qed.
Lemma elem_keys (s : gmap bytes V) k : k ∈ (map_to_list s).*1 <-> is_Some (s !! k).
Proof.
  rewrite elem_of_list_fmap. split.
  - intros ([k' v] & -> & H). apply elem_of_map_to_list in H. cbn. eauto.
  - intros [v H]. exists (k, v). split; auto. apply elem_of_map_to_list. auto.
Qed.
Lemma elem_concat_os os T k : Forall2 (fun (l : list bytes) (s : gmap bytes V) => Permutation l (map_to_list s).*1) os T ->
  (k ∈ concat os <-> exists i s, T !! i = Some s /\ is_Some (s !! k)).
Proof.
  intros H. rewrite elem_of_list_In, in_concat. split.
  - intros (l & Hl & Hk). apply elem_of_list_In in Hl, Hk. apply elem_of_list_lookup in Hl as [i Hl].
    destruct (Forall2_lookup_l _ _ _ _ _ H Hl) as (s & Hs & Hp). exists i, s. split; auto. apply elem_keys. rewrite <- Hp. auto.
  - intros (i & s & Hs & Hk). destruct (Forall2_lookup_r _ _ _ _ _ H Hs) as (l & Hl & Hp). exists l.
    split; [apply elem_of_list_In, elem_of_list_lookup; eauto|]. apply elem_of_list_In. rewrite Hp. apply elem_keys. auto.
Qed.
Lemma nodup_concat_os (pos : bytes -> nat) T : forall os n,
  Forall2 (fun (l : list bytes) (s : gmap bytes V) => Permutation l (map_to_list s).*1) os T ->
  (forall i s k, T !! i = Some s -> is_Some (s !! k) -> pos k = (n + i)%nat) -> NoDup (concat os).
Proof.
  induction T as [|s T IH]; intros os n H Hp; inversion H as [|l ? os' ? Hl HT]; subst; cbn; [constructor|].
  apply NoDup_app. split; [|split].
  - rewrite Hl. apply NoDup_fst_map_to_list.
  - intros k H1 H2. rewrite Hl in H1. apply elem_keys in H1. apply (elem_concat_os _ _ _ HT) in H2 as (i & s' & Hi & Hs).
    pose proof (Hp 0%nat s k eq_refl H1). pose proof (Hp (S i) s' k Hi Hs). lia.
  - apply (IH os' (S n)); auto. intros i s' k Hi Hs. rewrite (Hp (S i) s' k Hi Hs). lia.
Qed.
Lemma keys_ok m f os : holds m f -> legal m (CKeys os) ->
  exists l, cm_keys m os = Some l /\ NoDup l /\ forall k, k ∈ l <-> is_Some (f !! k).
Proof.
  intros (Hz & Hc & H) Hos. cbn in Hos. exists (concat os).
  assert (ND : NoDup (concat os)).
  { apply (nodup_concat_os (fun k => Z.to_nat (key_pos m k)) (table m) os 0 Hos). intros i s k Hi Hk.
    rewrite (H _ _ Hi) in Hk. case_decide; [auto|]. destruct Hk; discriminate. }
  assert (EL : forall k, k ∈ concat os <-> is_Some (f !! k)).
  { intros k. rewrite (elem_concat_os _ _ _ Hos). split.
    - intros (i & s & Hi & Hs). rewrite (H _ _ Hi) in Hs. case_decide; auto. destruct Hs; discriminate.
    - intros Hk. destruct (lookup_lt_is_Some_2 (table m) _ (nth_pos m k (proj1 Hz))) as [s E]. exists (Z.to_nat (key_pos m k)), s.
      split; auto. rewrite (H _ _ E), decide_True by auto. auto. }
  split; [|auto]. unfold cm_keys. destruct (Z.ltb_spec (count m) 0); [lia|].
  assert (HL : length (concat os) = size f).
  { assert (Hp : Permutation (concat os) (map_to_list f).*1).
    { apply NoDup_Permutation; auto; [apply NoDup_fst_map_to_list|]. intros k. rewrite EL, elem_keys. tauto. }
    rewrite Hp, map_length. auto. }
  apply (fill_app (concat os) []). rewrite replicate_length, HL, Hc. lia.
Qed.

(** ** One operation, and histories *)
Lemma ccall_ok m f o : holds m f -> legal m o -> exists r m' f', ccall m o = Some (r, m') /\ map_op f o r f' /\ holds m' f'.
Proof.
  intros Hh Hl. destruct o as [k v|k|k| | |os]; cbn [ccall map_op].
  - destruct (holds_set m f k v Hh) as (n & m' & -> & -> & H'). eauto 10.
  - rewrite (holds_get m f k Hh). eauto 10.
  - destruct (holds_delete m f k Hh) as (n & m' & -> & -> & H'). eauto 10.
  - eexists _, m, f. split; [reflexivity|]. split; auto. split; auto. destruct Hh as (_ & Hc & _). unfold cm_count. congruence.
  - eexists _, _, ∅. split; [reflexivity|]. split; auto. apply (holds_clear m f Hh).
  - destruct (keys_ok m f os Hh Hl) as (l & -> & H1 & H2). exists (CList l), m, f. split; auto. split; auto. split; eauto.
Qed.
Lemma ccalls_ok m os out : ccalls m os out -> forall f, holds m f ->
  exists rs m' f', out = Some (rs, m') /\ map_ops f os rs f' /\ holds m' f'.
Proof.
  induction 1 as [m|m o os Hl E|m o os r m1 out Hl E _ IH]; intros f Hh.
  - exists [], m, f. split; auto. split; auto. constructor.
  - destruct (ccall_ok m f o Hh Hl) as (r & m' & f' & E' & _). congruence.
  - destruct (ccall_ok m f o Hh Hl) as (r' & m' & f' & E' & Hm & Hh'). assert (r' = r /\ m' = m1) as [-> ->] by (split; congruence).
    destruct (IH f' Hh') as (rs & m2 & f2 & -> & Hms & Hh2). exists (r :: rs), m2, f2. split; auto. split; auto. econstructor; eauto.
Qed.
Lemma cmap_histories z os out : ccalls (new_cmap z : cmap V) os out ->
  exists rs m f, out = Some (rs, m) /\ map_ops ∅ os rs f /\ holds m f.
Proof. intros H. apply (ccalls_ok _ _ _ H). apply holds_new. Qed.
End CMapProofs.

(** With SegNum segments, the segment of a key is [segpos] (Prog.v) and its keys are those the model of KEYS visits. *)
Lemma segment_keys {P : Setup} {V} (m : cmap V) f i s : holds m f -> zlen (table m) = Zpos segnum -> table m !! i = Some s ->
  forall k, is_Some (s !! k) <-> is_Some (f !! k) /\ segpos k = N.of_nat i.
Proof.
  intros (Hz & Hc & H) Hs Hi k. rewrite (H _ _ Hi).
  assert (E : key_pos m k = Z.of_N (segpos k)). { unfold key_pos, segpos. rewrite Hs, N2Z.inj_mod. auto. }
  rewrite E. split.
  - case_decide as D; [|intros [? ?]; discriminate]. intros Hk. split; auto. lia.
  - intros [Hk Hp]. rewrite decide_True; auto. lia.
Qed.
Lemma segment_seg_keys {P : Setup} (m : cmap value) (d : db) i s : holds m (dict d) -> zlen (table m) = Zpos segnum ->
  table m !! i = Some s -> forall k, k ∈ seg_keys d (N.of_nat i) <-> is_Some (s !! k).
Proof.
  intros Hh Hs Hi k. rewrite (segment_keys m (dict d) i s Hh Hs Hi k). unfold seg_keys. rewrite elem_of_list_filter, elem_keys. tauto.
Qed.
