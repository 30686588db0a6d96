(** Accesses to the segmented maps are atomic: the simulation of Shard.v by Conc.v. *)
From Verif Require Export SpecShard ConcProofs SerialProofs.

Section WithParams.
Context {P : Setup} {A : Type}.
Implicit Types (t u : sthread A) (ts : list (sthread A)) (S : seg -> rw).

Definition at_seg (s : seg) (m : mode) (p : prog A) : nat :=
  match needs p with Some (s', m') => if decide (s' = s /\ m' = m) then 1 else 0 | None => 0 end.
Definition inseg (m : mode) (s : seg) (t : sthread A) : nat := match sspot t with Some _ => at_seg s m (scode t) | None => 0 end.
Definition wantseg (s : seg) (t : sthread A) : nat := match sspot t with Some _ => 0 | None => if sann t then at_seg s MW (scode t) else 0 end.
Definition fitting (t : sthread A) : Prop :=
  (sann t = true -> sspot t = None /\ ((exists p k, scode t = Acq p MW k) \/ exists s, needs (scode t) = Some (s, MW))) /\
  match sspot t with
  | None => True
  | Some Entered | Some (Exiting _) => needs (scode t) <> None
  | Some Replacing | Some (Adding _) => exists key v k, scode t = DSet key v k
  | Some Dropping => exists key k, scode t = DDel key k \/ scode t = EDel key k
  | Some (Counting _) => exists key k, scode t = DDel key k
  end.
Record SLI (S : seg -> rw) ts : Prop := mkSLI {
  l_fit : Forall fitting ts;
  l_rd : forall s, rd (S s) = total (inseg MR s) ts;
  l_wr : forall s, b2n (wr (S s)) = total (inseg MW s) ts;
  l_pend : forall s, b2n (pend (S s)) = total (wantseg s) ts;
  l_ex : forall s, wr (S s) = true -> rd (S s) = 0%nat /\ pend (S s) = false }.
Lemma sli_upd S ts i t t' S' : SLI S ts -> ts !! i = Some t -> fitting t' ->
  (forall s, (rd (S' s) + inseg MR s t = rd (S s) + inseg MR s t')%nat) -> (forall s, (b2n (wr (S' s)) + inseg MW s t = b2n (wr (S s)) + inseg MW s t')%nat) ->
  (forall s, (b2n (pend (S' s)) + wantseg s t = b2n (pend (S s)) + wantseg s t')%nat) -> (forall s, wr (S' s) = true -> rd (S' s) = 0%nat /\ pend (S' s) = false) ->
  SLI S' (<[i := t']> ts).
Proof.
  intros [I1 I2 I3 I4 I5] Hi Hf H1 H2 H3 H4. constructor; auto.
  - apply Forall_insert; auto.
  - intros s. pose proof (total_insert (inseg MR s) ts i t t' Hi). specialize (H1 s). rewrite (I2 s) in H1. lia.
  - intros s. pose proof (total_insert (inseg MW s) ts i t t' Hi). specialize (H2 s). rewrite (I3 s) in H2. lia.
  - intros s. pose proof (total_insert (wantseg s) ts i t t' Hi). specialize (H3 s). rewrite (I4 s) in H3. lia.
Qed.
Lemma sli_same S ts i t t' : SLI S ts -> ts !! i = Some t -> fitting t' -> (forall s m, inseg m s t' = inseg m s t) -> (forall s, wantseg s t' = wantseg s t) -> SLI S (<[i := t']> ts).
Proof. intros I Hi Hf H1 H2. eapply sli_upd; eauto; intros s; rewrite ?H1, ?H2; auto. apply (l_ex _ _ I). Qed.
Lemma at_seg_one s m p : needs p = Some (s, m) -> at_seg s m p = 1%nat.
Proof. intros E. unfold at_seg. rewrite E. rewrite decide_True; auto. Qed.
Lemma sli_excl S ts i j t u s m : SLI S ts -> i <> j -> ts !! i = Some t -> ts !! j = Some u -> inseg MW s t = 1%nat -> inseg m s u = 1%nat -> False.
Proof.
  intros I Hn Hi Hj H1 H2. pose proof (l_wr _ _ I s) as W. destruct m.
  - pose proof (total_ge (inseg MW s) ts i t Hi). pose proof (total_ge (inseg MR s) ts j u Hj). pose proof (l_rd _ _ I s) as R.
    destruct (wr (S s)) eqn:E; cbn in W; [|lia]. destruct (l_ex _ _ I s E) as [E0 _]. lia.
  - pose proof (total_two (inseg MW s) ts i j t u Hn Hi Hj). destruct (wr (S s)); cbn in W; lia.
Qed.

(** ** Values *)
Definition pend_of (t : sthread A) : option (bytes * value) := match scode t, sspot t with DSet key v _, Some (Adding _) => Some (key, v) | _, _ => None end.
Lemma pend_adding t key v : pend_of t = Some (key, v) -> is_adding key v t.
Proof. unfold pend_of, is_adding. destruct (scode t); try discriminate. destruct (sspot t) as [[]|]; try discriminate. intros [= -> ->]. eauto. Qed.
Lemma pend_inseg t key v : pend_of t = Some (key, v) -> inseg MW (Dict, segpos key) t = 1%nat.
Proof. intros H. apply pend_adding in H as (k & p & E1 & E2). unfold inseg. rewrite E1, E2. apply at_seg_one. reflexivity. Qed.
Definition placed (f : N -> gmap bytes value) : Prop := forall i key, is_Some (f i !! key) -> segpos key = i.
Record DR (M : gmap bytes value) (f : N -> gmap bytes value) ts : Prop := mkDR {
  r_pend : forall i t key v, ts !! i = Some t -> pend_of t = Some (key, v) -> M !! key = Some v /\ f (segpos key) !! key = None;
  r_rest : forall key, (forall i t v, ts !! i = Some t -> pend_of t <> Some (key, v)) -> M !! key = f (segpos key) !! key;
  r_placed : placed f }.
Definition alone (i : nat) (key : bytes) ts : Prop := forall j u v, j <> i -> ts !! j = Some u -> pend_of u <> Some (key, v).
Lemma sli_alone S ts i t key m : SLI S ts -> ts !! i = Some t -> inseg m (Dict, segpos key) t = 1%nat -> alone i key ts.
Proof. intros I Hi H j u v Hn Hj E. apply (sli_excl S ts j i u t (Dict, segpos key) m I); auto. eapply pend_inseg; eauto. Qed.
Lemma dr_same M f ts i t t' : DR M f ts -> ts !! i = Some t -> pend_of t' = pend_of t -> DR M f (<[i := t']> ts).
Proof.
  intros [R1 R2 R3] Hi E. constructor; auto.
  - intros j u key v Hj Hu. apply lookup_upd in Hj as [[-> ->]|[_ Hj]]; [rewrite E in Hu|]; eauto.
  - intros key H. apply R2. intros j u v Hj Hu. destruct (decide (j = i)) as [->|Hn].
    + assert (u = t) as -> by congruence. apply (H i t' v); [apply list_lookup_insert; eapply lookup_lt_Some; eauto|congruence].
    + apply (H j u v); [rewrite list_lookup_insert_ne by auto; auto|auto].
Qed.
Lemma dr_put M f ts i t t' key M' f' : DR M f ts -> ts !! i = Some t -> pend_of t = None -> pend_of t' = None -> alone i key ts ->
  (forall key', key' <> key -> M' !! key' = M !! key') -> (forall key', key' <> key -> f' (segpos key') !! key' = f (segpos key') !! key') ->
  M' !! key = f' (segpos key) !! key -> placed f' -> DR M' f' (<[i := t']> ts).
Proof.
  intros [R1 R2 R3] Hi E E' Ha HM Hf Hk Hp. constructor; auto.
  - intros j u key' v Hj Hu. apply lookup_upd in Hj as [[-> ->]|[Hn Hj]]; [congruence|]. assert (key' <> key) by (intros ->; eapply Ha; eauto). rewrite HM, Hf by auto. eauto.
  - intros key' H. destruct (decide (key' = key)) as [->|Hn]; [auto|]. rewrite HM, Hf by auto. apply R2. intros j u v Hj Hu. destruct (decide (j = i)) as [->|Hne]; [congruence|].
    apply (H j u v); [rewrite list_lookup_insert_ne by auto; auto|auto].
Qed.
Lemma dr_begin M f ts i t t' key v : DR M f ts -> ts !! i = Some t -> pend_of t = None -> pend_of t' = Some (key, v) -> alone i key ts -> f (segpos key) !! key = None ->
  DR (<[key := v]> M) f (<[i := t']> ts).
Proof.
  intros [R1 R2 R3] Hi E E' Ha Hf. constructor; auto.
  - intros j u key' w Hj Hu. apply lookup_upd in Hj as [[-> ->]|[Hn Hj]].
    + rewrite E' in Hu. injection Hu as <- <-. rewrite lookup_insert. auto.
    + assert (key' <> key) by (intros ->; eapply Ha; eauto). rewrite lookup_insert_ne by auto. eauto.
  - intros key' H. destruct (decide (key' = key)) as [->|Hn].
    + destruct (H i t' v); [apply list_lookup_insert; eapply lookup_lt_Some; eauto|auto].
    + rewrite lookup_insert_ne by auto. apply R2. intros j u w Hj Hu. destruct (decide (j = i)) as [->|Hne]; [congruence|].
      apply (H j u w); [rewrite list_lookup_insert_ne by auto; auto|auto].
Qed.
Lemma dr_finish M f ts i t t' key v f' : DR M f ts -> ts !! i = Some t -> pend_of t = Some (key, v) -> pend_of t' = None -> alone i key ts ->
  (forall key', key' <> key -> f' (segpos key') !! key' = f (segpos key') !! key') -> f' (segpos key) !! key = Some v -> placed f' -> DR M f' (<[i := t']> ts).
Proof.
  intros [R1 R2 R3] Hi E E' Ha Hf Hk Hp. constructor; auto.
  - intros j u key' w Hj Hu. apply lookup_upd in Hj as [[-> ->]|[Hn Hj]]; [congruence|]. assert (key' <> key) by (intros ->; eapply Ha; eauto). rewrite Hf by auto. eauto.
  - intros key' H. destruct (decide (key' = key)) as [->|Hn].
    + rewrite Hk. eapply R1; eauto.
    + rewrite Hf by auto. apply R2. intros j u w Hj Hu. destruct (decide (j = i)) as [->|Hne]; [congruence|].
      apply (H j u w); [rewrite list_lookup_insert_ne by auto; auto|auto].
Qed.
Lemma dr_alone M f ts i t key : DR M f ts -> ts !! i = Some t -> pend_of t = None -> alone i key ts -> M !! key = f (segpos key) !! key.
Proof. intros R Hi E Ha. apply (r_rest _ _ _ R). intros j u v Hj Hu. destruct (decide (j = i)) as [->|Hn]; [congruence|eapply Ha; eauto]. Qed.
Lemma dr_table M f ts key v : DR M f ts -> f (segpos key) !! key = Some v -> M !! key = Some v.
Proof. intros R H. rewrite (r_rest _ _ _ R key); auto. intros j u w Hj Hu. destruct (r_pend _ _ _ R _ _ _ _ Hj Hu). congruence. Qed.
Lemma fput_other {X} (f : N -> gmap bytes X) (g : gmap bytes X -> gmap bytes X) key key' : (forall m, g m !! key' = m !! key') -> fput f (segpos key) (g (f (segpos key))) (segpos key') !! key' = f (segpos key') !! key'.
Proof. intros H. unfold fput. case_decide as E; [rewrite H, E; reflexivity|reflexivity]. Qed.
Lemma fput_here {X} (f : N -> gmap bytes X) m i : fput f i m i = m.
Proof. unfold fput. rewrite decide_True; auto. Qed.
Lemma placed_put f key v : placed f -> placed (fput f (segpos key) (<[key := v]> (f (segpos key)))).
Proof.
  intros H i k. unfold fput. case_decide as E; [|apply H]. subst. intros [x Hx]. destruct (decide (k = key)) as [->|Hn]; [reflexivity|]. rewrite lookup_insert_ne in Hx by auto. apply H. eauto.
Qed.
Lemma placed_delete f key : placed f -> placed (fput f (segpos key) (delete key (f (segpos key)))).
Proof. intros H i k. unfold fput. case_decide as E; [|apply H]. subst. intros [x Hx]. apply lookup_delete_Some in Hx as [_ Hx]. apply H. eauto. Qed.
Lemma placed_alter f key v : placed f -> placed (fput f (segpos key) (alter (fun _ => v) key (f (segpos key)))).
Proof. intros H i k. unfold fput. case_decide as E; [|apply H]. subst. intros Hx. apply H. apply lookup_alter_is_Some in Hx. exact Hx. Qed.
(** The keys of a segment. *)
Lemma seg_perm d f i : placed f -> (forall key, segpos key = i -> dict d !! key = f i !! key) -> Permutation ((map_to_list (f i)).*1) (seg_keys d i).
Proof.
  intros Hp H. apply NoDup_Permutation.
  - apply NoDup_fst_map_to_list.
  - unfold seg_keys. apply stdpp.list.NoDup_filter. apply NoDup_fst_map_to_list.
  - intros k. unfold seg_keys. rewrite elem_of_list_filter. rewrite !elem_of_list_fmap. split.
    + intros ([k' v] & -> & Hk). apply elem_of_map_to_list in Hk. cbn. assert (Hs : segpos k' = i) by (apply Hp; eauto). split; [auto|]. exists (k', v). split; [auto|]. apply elem_of_map_to_list. rewrite H; auto.
    + intros (Hs & [k' v] & -> & Hk). apply elem_of_map_to_list in Hk. cbn in *. exists (k', v). split; [auto|]. apply elem_of_map_to_list. rewrite <- H; auto.
Qed.

(** A key that was found is there until the call is over. *)
Definition there (D : tables) (t : sthread A) : Prop :=
  match sspot t, scode t with
  | Some Replacing, DSet key _ _ | Some Dropping, DDel key _ => is_Some (dt D (segpos key) !! key)
  | Some Dropping, EDel key _ => is_Some (et D (segpos key) !! key)
  | _, _ => True
  end.
Definition same_but (s : seg) (D D' : tables) : Prop := (forall n, (Dict, n) <> s -> dt D' n = dt D n) /\ (forall n, (Expires, n) <> s -> et D' n = et D n).
Lemma there_upd S ts i t t' s D D' : SLI S ts -> ts !! i = Some t -> inseg MW s t = 1%nat -> same_but s D D' -> Forall (there D) ts -> there D' t' -> Forall (there D') (<[i := t']> ts).
Proof.
  intros I Hi H1 [B1 B2] HF Ht. apply Forall_lookup_2. intros j u Hj. apply lookup_upd in Hj as [[-> ->]|[Hn Hj]]; [auto|]. pose proof (Forall_lookup_1 _ _ _ _ HF Hj) as Hu.
  unfold there in *. destruct (sspot u) as [[]|] eqn:Es; auto; destruct (scode u) eqn:Ec; auto.
  all: (rewrite B1 || rewrite B2); auto; intros <-; eapply (sli_excl S ts i j t u _ MW); eauto; unfold inseg; rewrite Es, Ec; apply at_seg_one; reflexivity.
Qed.
Lemma there_same ts i t' D D' : dt D' = dt D -> et D' = et D -> Forall (there D) ts -> there D' t' -> Forall (there D') (<[i := t']> ts).
Proof.
  intros E1 E2 HF Ht. apply Forall_insert; auto. revert HF. apply Forall_impl. intros u. unfold there. rewrite E1, E2. auto.
Qed.
Lemma same_dt D key g : same_but (Dict, segpos key) D (set_dt D key g).
Proof. split; auto. intros n Hn. cbn. unfold fput. rewrite decide_False; congruence. Qed.
Lemma same_et D key g : same_but (Expires, segpos key) D (set_et D key g).
Proof. split; auto. intros n Hn. cbn. unfold fput. rewrite decide_False; congruence. Qed.

(** ** The simulation *)
Record INV (s : sconf A) (c : conf A) (hs : list lstate) : Prop := mkINV {
  v_lk : lk c = klk s;
  v_ths : ths c = map as_seen (sths s);
  v_exps : forall key, exps (cdb c) !! key = et (tabs s) (segpos key) !! key;
  v_cnt : cnt (cdb c) = ct (tabs s);
  v_dr : DR (dict (cdb c)) (dt (tabs s)) (sths s);
  v_sli : SLI (slk s) (sths s);
  v_there : Forall (there (tabs s)) (sths s);
  v_good : good true true c hs;
  v_wh : forall i t key v, sths s !! i = Some t -> pend_of t = Some (key, v) -> exists h, hs !! i = Some h /\ canwrite h key }.
Lemma can_excl c hs i j h h' key : good (A := A) true true c hs -> i <> j -> hs !! i = Some h -> hs !! j = Some h' -> canwrite h key -> canwrite h' key -> False.
Proof.
  intros G Hn Hi Hj (l & -> & Hl) (l' & -> & Hl'). pose proof (g_wr _ _ _ _ G (lockpos key)) as W. pose proof (total_two (held MW (lockpos key)) hs i j _ _ Hn Hi Hj) as E.
  cbn in E. rewrite !decide_True in E by auto. destruct (wr (lk c (lockpos key))); cbn in W; lia.
Qed.
Lemma seen_upd ts i t' : map as_seen (<[i := t']> ts) = <[i := as_seen t']> (map as_seen ts).
Proof. apply (list_fmap_insert as_seen). Qed.
Lemma seen_at ts i t : ts !! i = Some t -> map as_seen ts !! i = Some (as_seen t).
Proof. intros H. rewrite list_lookup_fmap, H. reflexivity. Qed.
(** A step that is not seen. *)
Lemma inv_stutter D L S ts D' S' i t t' c hs : INV (mkSC D L S ts) c hs -> ts !! i = Some t -> as_seen t' = as_seen t -> (pend_of t' = pend_of t \/ pend_of t' = None) ->
  (forall key, et D' (segpos key) !! key = et D (segpos key) !! key) -> ct D' = ct D -> DR (dict (cdb c)) (dt D') (<[i := t']> ts) -> SLI S' (<[i := t']> ts) -> Forall (there D') (<[i := t']> ts) ->
  INV (mkSC D' L S' (<[i := t']> ts)) c hs.
Proof.
  intros [V1 V2 V3 V4 V5 V6 VT V7 V8] Hi Hs Hpd He Hc Hd Hl HFt. constructor; cbn in *; auto.
  - rewrite seen_upd, Hs, list_insert_id; auto. apply seen_at; auto.
  - intros key. rewrite V3, He. reflexivity.
  - congruence.
  - intros j u key v Hj Hu. apply lookup_upd in Hj as [[-> ->]|[_ Hj]]; [destruct Hpd as [E|E]; rewrite E in Hu; [eauto|discriminate]|eauto].
Qed.
(** An access. *)
Lemma inv_prim T D L S ts D' i t t' c hs p d' p' : INV (mkSC D L S ts) c hs -> ts !! i = Some t -> as_seen t = mkT p false -> prim T (cdb c) p d' p' -> as_seen t' = mkT p' false ->
  (forall key, exps d' !! key = et D' (segpos key) !! key) -> cnt d' = ct D' -> DR (dict d') (dt D') (<[i := t']> ts) -> SLI S (<[i := t']> ts) -> Forall (there D') (<[i := t']> ts) ->
  (forall key v, pend_of t' = Some (key, v) -> pend_of t = Some (key, v) \/ exists h, hs !! i = Some h /\ canwrite h key) ->
  exists c', cstep T c c' /\ INV (mkSC D' L S (<[i := t']> ts)) c' hs.
Proof.
  intros [V1 V2 V3 V4 V5 V6 VT V7 V8] Hi Hs Hp Hs' He Hc Hd Hl HFt Hw. destruct c as [d L0 ts0]. cbn in *. subst L0 ts0.
  assert (Ht : map as_seen ts !! i = Some (mkT p false)) by (rewrite (seen_at _ _ _ Hi); congruence).
  exists (mkC d' L (<[i := mkT p' false]> (map as_seen ts))). split; [eapply C_prim; eauto|]. constructor; cbn; auto.
  - rewrite seen_upd, Hs'. reflexivity.
  - eapply good_prim; eauto.
  - intros j u key v Hj Hu. apply lookup_upd in Hj as [[-> ->]|[_ Hj]]; [destruct (Hw _ _ Hu); [eauto|auto]|eauto].
Qed.
Lemma fit_at S ts i t : SLI S ts -> ts !! i = Some t -> fitting t.
Proof. intros I Hi. eapply Forall_lookup_1; [apply (l_fit _ _ I)|eauto]. Qed.
Lemma fit_inner p o o' D D' : inner D p o D' o' -> fitting (mkS p false (Some o)) -> fitting (mkS p false (Some o')).
Proof. intros H [_ F]. split; [discriminate|]. destruct H; cbn in *; eauto; discriminate. Qed.
Lemma wf_at c hs i p b : good (A := A) true true c hs -> ths c !! i = Some (mkT p b) -> exists h, hs !! i = Some h /\ Wf.wf (fun _ => True) true true Idle h p.
Proof. intros G Hi. destruct (get_h _ _ _ _ _ _ G Hi) as (h & Hh & W & _). eauto. Qed.

Lemma inv_inner T D L S ts i p o D' o' c hs : INV (mkSC D L S ts) c hs -> ts !! i = Some (mkS p false (Some o)) -> inner D p o D' o' ->
  exists c', (c' = c \/ cstep T c c') /\ INV (mkSC D' L S (<[i := mkS p false (Some o')]> ts)) c' hs.
Proof.
  intros V Hi H. pose proof (v_sli _ _ _ V) as I. cbn in I. pose proof (v_dr _ _ _ V) as R. cbn in R.
  assert (I' : SLI S (<[i := mkS p false (Some o')]> ts)).
  { eapply sli_same; eauto. eapply fit_inner; eauto. eapply fit_at; eauto. }
  pose proof (v_exps _ _ _ V) as He. pose proof (v_cnt _ _ _ V) as Hc. cbn in He, Hc.
  assert (HA : forall key m, needs p = Some ((Dict, segpos key), m) -> alone i key ts).
  { intros key m Hn. eapply (sli_alone S ts i _ key m); eauto. unfold inseg. cbn. apply at_seg_one. exact Hn. }
  assert (Ht : ths c !! i = Some (as_seen (mkS p false (Some o)))) by (rewrite (v_ths _ _ _ V); apply seen_at; exact Hi).
  pose proof (v_there _ _ _ V) as HT. cbn in HT. pose proof (Forall_lookup_1 _ _ _ _ HT Hi) as Hth. unfold there in Hth. cbn in Hth.
  assert (HU : forall s D0, needs p = Some (s, MW) -> same_but s D D0 -> there D0 (mkS p false (Some o')) -> Forall (there D0) (<[i := mkS p false (Some o')]> ts)).
  { intros s D0 Hn Hb Ht0. eapply there_upd; eauto. unfold inseg. cbn. apply at_seg_one. exact Hn. }
  destruct H.
  - edestruct (inv_prim T) as (c' & C1 & C2); [exact V|exact Hi|reflexivity|apply P_DGet|..|exists c'; split; [right; exact C1|exact C2]]; cbn; auto; try discriminate; try (eapply dr_same; eauto; reflexivity); try (apply there_same with (D := D); cbn; auto; fail).
    + rewrite (dr_alone _ _ _ _ _ key R Hi eq_refl); eauto.
  - (* new *) destruct (wf_at _ _ _ _ _ (v_good _ _ _ V) Ht) as (h & Hh & W). cbn in W.
    edestruct (inv_prim T) as (c' & C1 & C2); [exact V|exact Hi|reflexivity|apply P_DSet|..|exists c'; split; [right; exact C1|exact C2]]; cbn; auto; try discriminate; try (eapply dr_same; eauto; reflexivity); try (apply there_same with (D := D); cbn; auto; fail).
    + rewrite (dr_alone _ _ _ _ _ key R Hi eq_refl); eauto. rewrite H. reflexivity.
    + eapply dr_begin; eauto.
    + intros key' v' [= <- <-]. right. inversion W; subst. eauto.
  - edestruct (inv_prim T) as (c' & C1 & C2); [exact V|exact Hi|reflexivity|apply P_CntLoad|..|exists c'; split; [right; exact C1|exact C2]]; cbn; auto; try discriminate; try (eapply dr_same; eauto; reflexivity); try (apply there_same with (D := D); cbn; auto; fail).
    + rewrite Hc. reflexivity.
  - edestruct (inv_prim T) as (c' & C1 & C2); [exact V|exact Hi|reflexivity|apply P_CntStore|..|exists c'; split; [right; exact C1|exact C2]]; cbn; auto; try discriminate; try (eapply dr_same; eauto; reflexivity); try (apply there_same with (D := D); cbn; auto; fail).
  - (* write *) exists c. split; [left; reflexivity|]. eapply inv_stutter; cbn; eauto.
    + eapply (dr_finish _ _ _ _ _ _ key v); [exact R|exact Hi|reflexivity|reflexivity|eauto|..].
      * intros key' Hn. apply fput_other. intros m. apply lookup_insert_ne; auto.
      * rewrite fput_here. apply lookup_insert.
      * apply placed_put. apply (r_placed _ _ _ R).
    + eapply HU; [reflexivity|apply same_dt|cbn; auto].
  - exists c. split; [left; reflexivity|]. eapply inv_stutter; cbn; eauto; try (eapply dr_same; eauto; reflexivity). apply there_same with (D := D); unfold there; cbn; eauto.
  - (* replace *) destruct Hth as [x Hx]. assert (E : dict (cdb c) !! key = Some x) by (eapply dr_table; eauto).
    edestruct (inv_prim T) as (c' & C1 & C2); [exact V|exact Hi|reflexivity|apply P_DSet|..|exists c'; split; [right; exact C1|exact C2]]; cbn; auto; try discriminate; try (eapply dr_same; eauto; reflexivity); try (apply there_same with (D := D); cbn; auto; fail).
    + rewrite E. reflexivity.
    + eapply (dr_put _ _ _ _ _ _ key); [exact R|exact Hi|reflexivity|reflexivity|eauto|..].
      * intros key' Hn. apply lookup_insert_ne; auto.
      * intros key' Hn. apply fput_other. intros m. apply lookup_insert_ne; auto.
      * rewrite fput_here, !lookup_insert. reflexivity.
      * apply placed_put. apply (r_placed _ _ _ R).
    + eapply HU; [reflexivity|apply same_dt|cbn; auto].
  - (* Delete, absent *) assert (E : dict (cdb c) !! key = None) by (rewrite (dr_alone _ _ _ _ _ key R Hi eq_refl); eauto).
    edestruct (inv_prim T) as (c' & C1 & C2); [exact V|exact Hi|reflexivity|apply P_DDel|..|exists c'; split; [right; exact C1|exact C2]]; cbn; auto; try discriminate; try (eapply dr_same; eauto; reflexivity); try (apply there_same with (D := D); cbn; auto; fail).
    + rewrite E. reflexivity.
    + rewrite delete_notin by auto. eapply dr_same; eauto; reflexivity.
  - exists c. split; [left; reflexivity|]. eapply inv_stutter; cbn; eauto; try (eapply dr_same; eauto; reflexivity). apply there_same with (D := D); unfold there; cbn; eauto.
  - (* drop *) destruct Hth as [x Hx]. assert (E : dict (cdb c) !! key = Some x) by (eapply dr_table; eauto).
    edestruct (inv_prim T) as (c' & C1 & C2); [exact V|exact Hi|reflexivity|apply P_DDel|..|exists c'; split; [right; exact C1|exact C2]]; cbn; auto; try discriminate; try (eapply dr_same; eauto; reflexivity); try (apply there_same with (D := D); cbn; auto; fail).
    + rewrite E. reflexivity.
    + eapply (dr_put _ _ _ _ _ _ key); [exact R|exact Hi|reflexivity|reflexivity|eauto|..].
      * intros key' Hn. apply lookup_delete_ne; auto.
      * intros key' Hn. apply fput_other. intros m. apply lookup_delete_ne; auto.
      * rewrite fput_here, !lookup_delete. reflexivity.
      * apply placed_delete. apply (r_placed _ _ _ R).
    + eapply HU; [reflexivity|apply same_dt|cbn; auto].
  - edestruct (inv_prim T) as (c' & C1 & C2); [exact V|exact Hi|reflexivity|apply P_CntLoad|..|exists c'; split; [right; exact C1|exact C2]]; cbn; auto; try discriminate; try (eapply dr_same; eauto; reflexivity); try (apply there_same with (D := D); cbn; auto; fail).
    + rewrite Hc. reflexivity.
  - edestruct (inv_prim T) as (c' & C1 & C2); [exact V|exact Hi|reflexivity|apply P_CntStore|..|exists c'; split; [right; exact C1|exact C2]]; cbn; auto; try discriminate; try (eapply dr_same; eauto; reflexivity); try (apply there_same with (D := D); cbn; auto; fail).
  - exists c. split; [left; reflexivity|]. eapply inv_stutter; cbn; eauto; try (eapply dr_same; eauto; reflexivity). apply there_same with (D := D); cbn; auto.
  - (* Keys *) match type of H with Permutation l (map_to_list (dt D ?n)).*1 => assert (HP : Permutation l (seg_keys (cdb c) n)) end.
    { rewrite H. apply seg_perm; [apply (r_placed _ _ _ R)|]. intros key <-. eapply dr_alone; eauto. }
    edestruct (inv_prim T) as (c' & C1 & C2); [exact V|exact Hi|reflexivity|apply P_DSeg; exact HP|..|exists c'; split; [right; exact C1|exact C2]]; cbn; auto; try discriminate; try (eapply dr_same; eauto; reflexivity); try (apply there_same with (D := D); cbn; auto; fail).
  - edestruct (inv_prim T) as (c' & C1 & C2); [exact V|exact Hi|reflexivity|apply P_EGet|..|exists c'; split; [right; exact C1|exact C2]]; cbn; auto; try discriminate; try (eapply dr_same; eauto; reflexivity); try (apply there_same with (D := D); cbn; auto; fail).
    + rewrite He. reflexivity.
  - edestruct (inv_prim T) as (c' & C1 & C2); [exact V|exact Hi|reflexivity|apply P_ESet|..|exists c'; split; [right; exact C1|exact C2]]; cbn; auto; try discriminate; try (eapply dr_same; eauto; reflexivity); try (apply there_same with (D := D); cbn; auto; fail).
    + intros key'. destruct (decide (key' = key)) as [->|Hn]; [rewrite fput_here, !lookup_insert; auto|]. rewrite lookup_insert_ne by auto. rewrite fput_other; [auto|]. intros m. apply lookup_insert_ne; auto.
    + eapply HU; [reflexivity|apply same_et|cbn; auto].
  - edestruct (inv_prim T) as (c' & C1 & C2); [exact V|exact Hi|reflexivity|apply P_EDel|..|exists c'; split; [right; exact C1|exact C2]]; cbn; auto; try discriminate; try (eapply dr_same; eauto; reflexivity); try (apply there_same with (D := D); cbn; auto; fail).
    + rewrite He, H. reflexivity.
    + intros key'. destruct (decide (key' = key)) as [->|Hn]; [rewrite lookup_delete; auto|]. rewrite lookup_delete_ne by auto. auto.
  - exists c. split; [left; reflexivity|]. eapply inv_stutter; cbn; eauto; try (eapply dr_same; eauto; reflexivity). apply there_same with (D := D); unfold there; cbn; eauto.
  - destruct Hth as [x Hx].
    edestruct (inv_prim T) as (c' & C1 & C2); [exact V|exact Hi|reflexivity|apply P_EDel|..|exists c'; split; [right; exact C1|exact C2]]; cbn; auto; try discriminate; try (eapply dr_same; eauto; reflexivity); try (apply there_same with (D := D); cbn; auto; fail).
    + rewrite He, Hx. reflexivity.
    + intros key'. destruct (decide (key' = key)) as [->|Hn]; [rewrite fput_here, !lookup_delete; auto|]. rewrite lookup_delete_ne by auto. rewrite fput_other; [auto|]. intros m. apply lookup_delete_ne; auto.
    + eapply HU; [reflexivity|apply same_et|cbn; auto].
Qed.
Lemma as_seen_none (p : prog A) b : match p with Acq _ _ _ => True | _ => b = false end -> as_seen (mkS p b None) = mkT p b.
Proof. unfold as_seen. cbn. destruct p; intros; subst; auto. Qed.
Lemma seen_false (p : prog A) : as_seen (mkS p false None) = mkT p false.
Proof. apply as_seen_none. destruct p; auto. Qed.
Lemma fit_false (p : prog A) : fitting (mkS p false None).
Proof. split; cbn; [discriminate|auto]. Qed.
Lemma sli_none S ts i p q : SLI S ts -> ts !! i = Some (mkS p false None) -> SLI S (<[i := mkS q false None]> ts).
Proof. intros I Hi. eapply sli_same; eauto. apply fit_false. Qed.
Lemma there_alter D key v ts : Forall (there D) ts -> Forall (there (set_dt D key (alter (fun _ => v) key))) ts.
Proof.
  apply Forall_impl. intros u. unfold there. cbn. destruct (sspot u) as [[]|]; auto; destruct (scode u); auto; unfold fput; case_decide as E; auto; rewrite lookup_alter_is_Some, <- ?E; auto.
Qed.
Lemma inv_free T D L S ts i p D' p' c hs : INV (mkSC D L S ts) c hs -> ts !! i = Some (mkS p false None) -> free_step T D p D' p' ->
  exists c', cstep T c c' /\ INV (mkSC D' L S (<[i := mkS p' false None]> ts)) c' hs.
Proof.
  intros V Hi H. pose proof (v_sli _ _ _ V) as I. cbn in I. pose proof (v_dr _ _ _ V) as R. cbn in R. pose proof (v_exps _ _ _ V) as He. pose proof (v_cnt _ _ _ V) as Hc. cbn in He, Hc.
  pose proof (v_there _ _ _ V) as HT. cbn in HT. assert (Hpn : forall q, pend_of (mkS q false None) = None) by (intros q; unfold pend_of; cbn; destruct q; reflexivity).
  assert (Hpre : forall q d', prim T (cdb c) p d' q -> (forall key, exps d' !! key = et D' (segpos key) !! key) -> cnt d' = ct D' -> DR (dict d') (dt D') (<[i := mkS q false None]> ts) ->
    Forall (there D') (<[i := mkS q false None]> ts) -> exists c', cstep T c c' /\ INV (mkSC D' L S (<[i := mkS q false None]> ts)) c' hs).
  { intros q d' Hp E1 E2 E3 E4. eapply (inv_prim T D L S ts D' i (mkS p false None) (mkS q false None) c hs p d' q); eauto; try apply seen_false; [eapply sli_none; eauto|]. intros key v E. rewrite Hpn in E. discriminate. }
  assert (Hsame : forall q M f, DR M f ts -> DR M f (<[i := mkS q false None]> ts)) by (intros q M f HR; eapply dr_same; [exact HR|exact Hi|rewrite !Hpn; reflexivity]).
  assert (Ht : ths c !! i = Some (mkT p false)) by (rewrite (v_ths _ _ _ V), <- seen_false; apply seen_at; exact Hi).
  assert (Hsm : forall D0 q, dt D0 = dt D -> et D0 = et D -> Forall (there D0) (<[i := mkS q false None]> ts)) by (intros D0 q E1 E2; apply there_same with (D := D); auto; unfold there; cbn; auto).
  destruct H.
  - eapply Hpre; [apply P_Hang|..]; auto.
  - eapply Hpre; [apply P_Now; auto|..]; auto.
  - eapply Hpre; [apply P_Range; auto|..]; auto.
  - rewrite <- Hc in *. eapply Hpre; [apply P_CntLoad|..]; auto.
  - eapply Hpre; [apply P_CntStore|..]; cbn; auto.
  - destruct (wf_at _ _ _ _ _ (v_good _ _ _ V) Ht) as (h & Hh & W). inversion W as [| | | | | | |? ? ? ? ? Hcw| | | | | | | | | | |]; subst.
    assert (Ha : alone i key ts). { intros j u w Hn Hj Hu. destruct (v_wh _ _ _ V j u key w Hj Hu) as (h' & Hh' & Hc'). eapply (can_excl c hs i j h h' key); eauto. apply (v_good _ _ _ V). }
    eapply Hpre; [apply P_DMut|..]; cbn; auto.
    + eapply (dr_put _ _ _ _ _ _ key); [exact R|exact Hi|apply Hpn|apply Hpn|exact Ha|..].
      * intros key' Hn. apply lookup_alter_ne; auto.
      * intros key' Hn. apply fput_other. intros m. apply lookup_alter_ne; auto.
      * rewrite fput_here, !lookup_alter, (dr_alone _ _ _ _ _ key R Hi (Hpn _) Ha). reflexivity.
      * apply placed_alter. apply (r_placed _ _ _ R).
    + apply Forall_insert; [apply there_alter; auto|]. unfold there. cbn. auto.
  - assert (E : dict (cdb c) !! key = Some x) by (eapply dr_table; eauto). rewrite <- E in *. eapply Hpre; [apply P_DGet|..]; auto.
Qed.
Lemma inv_key D L S ts i p b q b' c hs L' hs' h1 : INV (mkSC D L S ts) c hs -> ts !! i = Some (mkS p b None) -> needs p = None ->
  as_seen (mkS q b' None) = mkT q b' -> fitting (mkS q b' None) -> (b' = true -> needs q = None) ->
  (hs' = hs \/ hs' = <[i := h1]> hs) -> good true true (mkC (cdb c) L' (<[i := mkT q b']> (ths c))) hs' ->
  INV (mkSC D L' S (<[i := mkS q b' None]> ts)) (mkC (cdb c) L' (<[i := mkT q b']> (ths c))) hs'.
Proof.
  intros V Hi Hn Hs Hf Hb Hh G. destruct V as [V1 V2 V3 V4 V5 V6 VT V7 V8]. cbn in *.
  assert (Hpn : forall q b, pend_of (mkS q b None) = None) by (intros q0 b0; unfold pend_of; cbn; destruct q0; reflexivity). constructor; cbn; auto.
  - rewrite seen_upd, Hs, V2. reflexivity.
  - eapply dr_same; eauto. rewrite !Hpn. reflexivity.
  - eapply sli_same; eauto. intros s. unfold wantseg, at_seg. cbn. rewrite Hn. destruct b, b'; auto; rewrite Hb; auto.
  - apply Forall_insert; auto. unfold there. cbn. auto.
  - intros j u key v Hj Hu. apply lookup_upd in Hj as [[-> ->]|[Hne Hj]]; [rewrite Hpn in Hu; discriminate|]. destruct (V8 j u key v Hj Hu) as (h & H1 & H2). exists h. split; auto.
    destruct Hh as [->| ->]; auto. rewrite list_lookup_insert_ne by auto. auto.
Qed.
Lemma inv_seg D L S ts S' i t t' c hs : INV (mkSC D L S ts) c hs -> ts !! i = Some t -> as_seen t' = as_seen t -> pend_of t' = None -> pend_of t = None -> SLI S' (<[i := t']> ts) -> there D t' ->
  INV (mkSC D L S' (<[i := t']> ts)) c hs.
Proof.
  intros V Hi Hs H1 H2 Hl Ht. eapply inv_stutter; eauto.
  - eapply dr_same; [apply (v_dr _ _ _ V)|exact Hi|congruence].
  - apply Forall_insert; auto. apply (v_there _ _ _ V).
Qed.
Lemma seg_totals S ts i t t' s0 x : SLI S ts -> ts !! i = Some t -> fitting t' ->
  (forall s m, s <> s0 -> inseg m s t' = inseg m s t /\ wantseg s t' = wantseg s t) ->
  (rd x + inseg MR s0 t = rd (S s0) + inseg MR s0 t')%nat -> (b2n (wr x) + inseg MW s0 t = b2n (wr (S s0)) + inseg MW s0 t')%nat ->
  (b2n (pend x) + wantseg s0 t = b2n (pend (S s0)) + wantseg s0 t')%nat -> (wr x = true -> rd x = 0%nat /\ pend x = false) ->
  SLI (fput S s0 x) (<[i := t']> ts).
Proof.
  intros I Hi Hf Ho H1 H2 H3 H4. eapply sli_upd; eauto; intros s; unfold fput; case_decide as E; subst; auto.
  - destruct (Ho s MR E) as [-> _]. auto.
  - destruct (Ho s MW E) as [-> _]. auto.
  - destruct (Ho s MR E) as [_ ->]. auto.
  - apply (l_ex _ _ I).
Qed.
Lemma at_seg_other s s0 m m0 p : needs p = Some (s0, m0) -> s <> s0 \/ m <> m0 -> at_seg s m p = 0%nat.
Proof. intros E H. unfold at_seg. rewrite E. rewrite decide_False; auto. intros [-> ->]. destruct H; congruence. Qed.
Lemma pend_nw (p : prog A) b o : (forall q, o <> Some (Adding q)) -> pend_of (mkS p b o) = None.
Proof. intros H. unfold pend_of. cbn. destruct p; auto. destruct o as [[]|]; auto. exfalso. eapply H. reflexivity. Qed.
Lemma there_nw D (p : prog A) b o : o <> Some Replacing -> o <> Some Dropping -> there D (mkS p b o).
Proof. intros H1 H2. unfold there. cbn. destruct o as [[]|]; auto; congruence. Qed.
Lemma seen_needs (p : prog A) b o s m : needs p = Some (s, m) -> as_seen (mkS p b o) = mkT (match o with Some (Adding p) | Some (Counting p) | Some (Exiting p) => p | _ => p end) false.
Proof. intros E. unfold as_seen. cbn. destruct p; try discriminate; reflexivity. Qed.
Lemma inv_step T s s' c hs : INV s c hs -> mstep T s s' -> exists c' hs', (c' = c \/ cstep T c c') /\ INV s' c' hs'.
Proof.
  intros V H. pose proof (v_lk _ _ _ V) as EL. pose proof (v_ths _ _ _ V) as ET. pose proof (v_good _ _ _ V) as G. pose proof (v_sli _ _ _ V) as I.
  destruct c as [d L0 ts0]. cbn in EL, ET. subst L0 ts0.
  destruct H as [D L S ts i p D' p' Hi Hf|D L S ts i pos k n Hi HL|D L S ts i pos k n Hi HL|D L S ts i pos k Hi HL|D L S ts i pos k n b Hi HL|D L S ts i pos k n b Hi HL|
    D L S ts i p s n Hi Hn HL|D L S ts i p s n Hi Hn HL|D L S ts i p s Hi Hn HL|D L S ts i p s q n b Hi Hn HL|D L S ts i p s q n b Hi Hn HL|D L S ts i p o D' o' Hi Hin]; cbn in *.
  - destruct (inv_free T _ _ _ _ _ _ _ _ _ _ V Hi Hf) as (c' & H1 & H2). eauto.
  - assert (Ht : map as_seen ts !! i = Some (mkT (Acq pos MR k) false)) by exact (seen_at _ _ _ Hi). destruct (get_h _ _ _ _ i _ G Ht) as (h & Hh & W1 & W2 & W3). cbn in W1. destruct (wf_inv_acq _ _ _ _ _ _ _ W1) as (h1 & Hl & Hw).
    eexists _, (<[i := h1]> hs). split; [right; eapply C_rlock; eauto|]. eapply (inv_key D L S ts i _ _ k false _ hs _ _ h1 V Hi); auto; try apply seen_false; try apply fit_false; [discriminate|]. eapply good_lock; eauto. cbn. eauto.
  - assert (Ht : map as_seen ts !! i = Some (mkT (Acq pos MW k) false)) by exact (seen_at _ _ _ Hi).
    eexists _, hs. split; [right; eapply C_announce; eauto|]. eapply (inv_key D L S ts i _ _ _ true _ hs _ _ Idle V Hi); auto; [split; cbn; eauto|]. eapply good_announce; eauto.
  - assert (Ht : map as_seen ts !! i = Some (mkT (Acq pos MW k) true)) by exact (seen_at _ _ _ Hi). destruct (get_h _ _ _ _ i _ G Ht) as (h & Hh & W1 & W2 & W3). cbn in W1. destruct (wf_inv_acq _ _ _ _ _ _ _ W1) as (h1 & Hl & Hw).
    eexists _, (<[i := h1]> hs). split; [right; eapply C_wlock; eauto|]. eapply (inv_key D L S ts i _ _ k false _ hs _ _ h1 V Hi); auto; try apply seen_false; try apply fit_false; [discriminate|]. eapply good_lock; eauto. cbn. eauto.
  - assert (Ht : map as_seen ts !! i = Some (mkT (Rel pos MR k) false)) by exact (seen_at _ _ _ Hi). destruct (get_h _ _ _ _ i _ G Ht) as (h & Hh & W1 & W2 & W3). cbn in W1. destruct (wf_inv_rel _ _ _ _ _ _ _ W1) as (h1 & Hl & Hw).
    eexists _, (<[i := h1]> hs). split; [right; eapply C_runlock; eauto|]. eapply (inv_key D L S ts i _ _ k false _ hs _ _ h1 V Hi); auto; try apply seen_false; try apply fit_false; [discriminate|]. eapply good_unlock; eauto. cbn. eauto.
  - assert (Ht : map as_seen ts !! i = Some (mkT (Rel pos MW k) false)) by exact (seen_at _ _ _ Hi). destruct (get_h _ _ _ _ i _ G Ht) as (h & Hh & W1 & W2 & W3). cbn in W1. destruct (wf_inv_rel _ _ _ _ _ _ _ W1) as (h1 & Hl & Hw).
    eexists _, (<[i := h1]> hs). split; [right; eapply C_wunlock; eauto|]. eapply (inv_key D L S ts i _ _ k false _ hs _ _ h1 V Hi); auto; try apply seen_false; try apply fit_false; [discriminate|]. eapply good_unlock; eauto. cbn. eauto.
  - (* RLock of a segment *) eexists _, hs. split; [left; reflexivity|]. eapply inv_seg; [exact V|exact Hi|rewrite !(seen_needs _ _ _ _ _ Hn); reflexivity|apply pend_nw; congruence|apply pend_nw; congruence| |apply there_nw; congruence].
    apply seg_totals with (t := mkS p false None); auto; rewrite ?HL; cbn; try (split; cbn; congruence); try discriminate.
    + intros s0 m Hs. unfold inseg. cbn. split; auto. apply (at_seg_other _ _ _ _ _ Hn). auto.
    + unfold inseg. cbn. rewrite (at_seg_one _ _ _ Hn). lia.
    + unfold inseg. cbn. rewrite (at_seg_other s s MW MR p Hn) by (right; discriminate). lia.
  - (* Lock announced *) eexists _, hs. split; [left; reflexivity|]. eapply inv_seg; [exact V|exact Hi|rewrite !(seen_needs _ _ _ _ _ Hn); reflexivity|apply pend_nw; congruence|apply pend_nw; congruence| |apply there_nw; congruence].
    apply seg_totals with (t := mkS p false None); auto; rewrite ?HL; cbn; try (split; cbn; eauto; fail); try discriminate; auto.
    + intros s0 m Hs. unfold wantseg. cbn. split; auto. apply (at_seg_other _ _ _ _ _ Hn). auto.
    + unfold wantseg. cbn. rewrite (at_seg_one _ _ _ Hn). lia.
  - (* Lock *) eexists _, hs. split; [left; reflexivity|]. eapply inv_seg; [exact V|exact Hi|rewrite !(seen_needs _ _ _ _ _ Hn); reflexivity|apply pend_nw; congruence|apply pend_nw; congruence| |apply there_nw; congruence].
    apply seg_totals with (t := mkS p true None); auto; rewrite ?HL; cbn; try (split; cbn; congruence); try discriminate; auto.
    + intros s0 m Hs. unfold inseg, wantseg. cbn. rewrite !(at_seg_other s0 s _ _ _ Hn) by auto. auto.
    + unfold inseg. cbn. rewrite (at_seg_other s s MR MW p Hn) by (right; discriminate). lia.
    + unfold inseg. cbn. rewrite (at_seg_one _ _ _ Hn). lia.
    + unfold wantseg. cbn. rewrite (at_seg_one _ _ _ Hn). lia.
  - (* RUnlock *) eexists _, hs. split; [left; reflexivity|]. eapply inv_seg; [exact V|exact Hi|rewrite (seen_needs _ _ _ _ _ Hn); apply seen_false|apply pend_nw; congruence|apply pend_nw; congruence| |apply there_nw; congruence].
    apply seg_totals with (t := mkS p false (Some (Exiting q))); auto; rewrite ?HL; cbn; try apply fit_false; try discriminate; auto.
    + intros s0 m Hs. unfold inseg, wantseg. cbn. rewrite !(at_seg_other s0 s _ _ _ Hn) by auto. auto.
    + unfold inseg. cbn. rewrite (at_seg_one _ _ _ Hn). lia.
    + unfold inseg. cbn. rewrite (at_seg_other s s MW MR p Hn) by (right; discriminate). lia.
  - (* Unlock *) eexists _, hs. split; [left; reflexivity|]. eapply inv_seg; [exact V|exact Hi|rewrite (seen_needs _ _ _ _ _ Hn); apply seen_false|apply pend_nw; congruence|apply pend_nw; congruence| |apply there_nw; congruence].
    apply seg_totals with (t := mkS p false (Some (Exiting q))); auto; rewrite ?HL; cbn; try apply fit_false; try discriminate; auto.
    + intros s0 m Hs. unfold inseg, wantseg. cbn. rewrite !(at_seg_other s0 s _ _ _ Hn) by auto. auto.
    + unfold inseg. cbn. rewrite (at_seg_other s s MR MW p Hn) by (right; discriminate). lia.
    + unfold inseg. cbn. rewrite (at_seg_one _ _ _ Hn). lia.
  - destruct (inv_inner T _ _ _ _ _ _ _ _ _ _ _ V Hi Hin) as (c' & H1 & H2). eauto.
Qed.

(** ** From the start *)
Lemma inv_start D d (ps : list (prog A)) : tables_of D d -> Forall (Wf.wf (fun _ => True) true true Idle Idle) ps ->
  INV (sstart D ps) (start d ps) (map (fun _ => Idle) ps).
Proof.
  intros (H1 & H2 & H3 & H4) W. assert (Hno : forall i t key v, map (fun p : prog A => mkS p false None) ps !! i = Some t -> pend_of t <> Some (key, v)).
  { intros i t key v Hi. rewrite list_lookup_fmap in Hi. destruct (ps !! i); [|discriminate]. injection Hi as <-. rewrite pend_nw by congruence. discriminate. }
  assert (Hz : forall f, (forall p : prog A, f (mkS p false None) = 0%nat) -> total f (map (fun p : prog A => mkS p false None) ps) = 0%nat).
  { intros f Hf. apply total_zero. intros x Hx. apply elem_of_list_fmap in Hx as (p & -> & _). apply Hf. }
  constructor; cbn; auto.
  - rewrite map_map. apply map_ext. intros p. rewrite seen_false. reflexivity.
  - constructor; [|intros key _; symmetry; apply H1|exact H4]. intros i t key v Hi E. destruct (Hno i t key v Hi E).
  - constructor; cbn; try discriminate.
    + apply Forall_fmap, Forall_true. intros p. apply fit_false.
    + intros s. symmetry. apply Hz. reflexivity.
    + intros s. symmetry. apply Hz. reflexivity.
    + intros s. symmetry. apply Hz. reflexivity.
  - apply Forall_fmap, Forall_true. intros p. apply there_nw; congruence.
  - apply good_start. exact W.
  - intros i t key v Hi E. destruct (Hno i t key v Hi E).
Qed.
Lemma inv_steps T s s' c hs : INV s c hs -> rtc (mstep T) s s' -> exists c' hs', rtc (cstep T) c c' /\ INV s' c' hs'.
Proof.
  intros V H. revert c hs V. induction H as [s|s s1 s' Hs _ IH]; intros c hs V; [exists c, hs; split; [reflexivity|auto]|].
  destruct (inv_step _ _ _ _ _ V Hs) as (c1 & hs1 & Hc & V1). destruct (IH _ _ V1) as (c' & hs' & Hr & V').
  exists c', hs'. split; auto. destruct Hc as [->|Hc]; auto. eapply rtc_l; eauto.
Qed.
Lemma find_pend ts key : (exists i t v, ts !! i = Some t /\ pend_of t = Some (key, v)) \/ (forall i t v, ts !! i = Some t -> pend_of t <> Some (key, v)).
Proof.
  induction ts as [|t ts IH]; [right; intros i t v H; discriminate|]. destruct IH as [(i & u & v & H1 & H2)|IH]; [left; exists (Datatypes.S i), u, v; auto|].
  destruct (pend_of t) as [[key' v]|] eqn:E.
  - destruct (decide (key' = key)) as [->|Hn]; [left; exists 0%nat, t, v; auto|]. right. intros [|i] u w H; [injection H as <-; congruence|apply (IH i u w H)].
  - right. intros [|i] u w H; [injection H as <-; congruence|apply (IH i u w H)].
Qed.
Lemma inv_seen s c hs : INV s c hs -> seen s c.
Proof.
  intros V. destruct V as [V1 V2 V3 V4 V5 V6 VT V7 V8]. constructor; auto. intros key. destruct (find_pend (sths s) key) as [(i & t & v & H1 & H2)|H].
  - right. destruct (r_pend _ _ _ V5 _ _ _ _ H1 H2) as [E1 E2]. exists i, t, v. repeat split; auto. apply pend_adding; auto.
  - left. apply (r_rest _ _ _ V5 _ H).
Qed.

(** ** The segments are used exclusively *)
Lemma in_seg_one t g m : sspot t <> None -> needs (scode t) = Some (g, m) -> inseg m g t = 1%nat.
Proof. intros H E. unfold inseg. destruct (sspot t); [|congruence]. apply at_seg_one; auto. Qed.
Lemma uses_needs (p : prog A) g : uses_map p = Some g -> exists m, needs p = Some (g, m) /\ (m = MR -> match p with DGet _ _ | EGet _ _ | DSeg _ _ => True | _ => False end).
Proof. destruct p; cbn; intros [= <-]; eexists; (split; [reflexivity|]); auto; discriminate. Qed.
Lemma inv_exclusive s c hs i j t u g : INV s c hs -> i <> j -> sths s !! i = Some t -> sths s !! j = Some u -> in_segment g t -> in_segment g u -> only_reads t /\ only_reads u.
Proof.
  intros V Hn Hi Hj [H1 U1] [H2 U2]. destruct (uses_needs _ _ U1) as (m1 & E1 & R1). destruct (uses_needs _ _ U2) as (m2 & E2 & R2).
  pose proof (v_sli _ _ _ V) as I. pose proof (in_seg_one _ _ _ H1 E1) as N1. pose proof (in_seg_one _ _ _ H2 E2) as N2.
  destruct m1; [|exfalso; eapply (sli_excl _ _ i j); eauto]. destruct m2; [|exfalso; eapply (sli_excl _ _ j i); eauto]. split; [apply R1|apply R2]; auto.
Qed.
Lemma inv_no_bad s c hs i t : INV s c hs -> sths s !! i = Some t -> ~ bad_exit s t.
Proof.
  intros V Hi (g & m & H1 & E & H2). pose proof (v_sli _ _ _ V) as I. pose proof (in_seg_one _ _ _ H1 E) as N. destruct m.
  - pose proof (total_ge (inseg MR g) _ _ _ Hi). rewrite <- (l_rd _ _ I) in H. lia.
  - pose proof (total_ge (inseg MW g) _ _ _ Hi). rewrite <- (l_wr _ _ I), H2 in H. cbn in H. lia.
Qed.

(** ** Progress *)
Definition wt (t : sthread A) : nat :=
  match sspot t with Some (Adding _) | Some (Counting _) => 6 | Some (Exiting _) => 5 | None => if sann t then 3 else 4 | Some Entered => 2 | Some Replacing | Some Dropping => 1 end.
Definition slt (t' t : sthread A) : Prop := child (tcode (as_seen t')) (tcode (as_seen t)) \/ (tcode (as_seen t') = tcode (as_seen t) /\ (wt t' < wt t)%nat).
Lemma slt_wf t : Acc slt t.
Proof.
  remember (tcode (as_seen t)) as p eqn:Ep. revert t Ep. induction (child_wf p) as [p _ IHp]. intros t.
  remember (wt t) as n eqn:En. revert t En. induction (lt_wf n) as [n _ IHn]. intros t -> ->. constructor. intros t' [H|[E H]].
  - eapply IHp; [exact H|reflexivity].
  - eapply IHn; [exact H|reflexivity|auto].
Qed.
Lemma slt_irrefl t : ~ slt t t.
Proof. intros H. induction (slt_wf t) as [t _ IH]. eauto. Qed.
Definition uslt (l' l : list (sthread A)) : Prop := exists i x y, l !! i = Some x /\ slt y x /\ l' = <[i := y]> l.
Lemma uslt_wf (l : list (sthread A)) : Acc uslt l.
Proof.
  induction l as [|x l IH]; [constructor; intros l' (i & x & y & H & _); discriminate|].
  revert l IH. induction (slt_wf x) as [x _ IHx]. intros l Hl. induction Hl as [l Hl IHl].
  constructor. intros l' ([|i] & z & y & H & Hlt & ->); simpl in *.
  - injection H as ->. apply IHx; auto. constructor; auto.
  - apply IHl. exists i, z, y. auto.
Qed.
Lemma inner_slt D p o D' o' : inner D p o D' o' -> slt (mkS p false (Some o')) (mkS p false (Some o)).
Proof. intros H. destruct H; unfold slt, wt; cbn; try (left; constructor; fail); right; (split; [reflexivity|lia]). Qed.
Lemma free_slt T D p D' p' : free_step T D p D' p' -> slt (mkS p' false None) (mkS p false None) \/ p = p'.
Proof. intros H. destruct H; auto; left; left; cbn; constructor. Qed.
Lemma mstep_uslt T s s' : mstep T s s' -> uslt (sths s') (sths s) \/ sths s' = sths s.
Proof.
  intros H. destruct H as [D L S ts i p D' p' Hi Hf|D L S ts i pos k n Hi HL|D L S ts i pos k n Hi HL|D L S ts i pos k Hi HL|D L S ts i pos k n b Hi HL|D L S ts i pos k n b Hi HL|
    D L S ts i p s n Hi Hn HL|D L S ts i p s n Hi Hn HL|D L S ts i p s Hi Hn HL|D L S ts i p s q n b Hi Hn HL|D L S ts i p s q n b Hi Hn HL|D L S ts i p o D' o' Hi Hin]; cbn in *.
  1: destruct (free_slt _ _ _ _ _ Hf) as [H|<-]; [left; eexists i, _, _; eauto|right; apply list_insert_id; auto].
  all: left; eexists i, _, _; split; [exact Hi|split; [|reflexivity]].
  all: try (left; cbn; constructor; fail).
  all: try (right; unfold wt; cbn; split; [reflexivity|lia]; fail).
  eapply inner_slt; eauto.
Qed.
Lemma sadvance_finite T (f : nat -> sconf A) : ~ (forall n, sadvance T (f n) (f (Datatypes.S n))).
Proof.
  intros H. assert (forall l, Acc uslt l -> forall n, sths (f n) = l -> False) as Hf.
  { intros l Ha. induction Ha as [l _ IH]. intros n <-. destruct (H n) as [Hs Hne]. destruct (mstep_uslt _ _ _ Hs) as [Hu|E]; [|congruence]. apply (IH _ Hu (Datatypes.S n)). reflexivity. }
  eapply Hf; [apply uslt_wf|reflexivity]. Unshelve. exact 0%nat.
Qed.
Lemma sadvances T s s' i t t' : mstep T s s' -> sths s !! i = Some t -> sths s' = <[i := t']> (sths s) -> slt t' t -> sadvance T s s'.
Proof.
  intros H Hi Hc Ht. split; auto. rewrite Hc. intros E. apply (f_equal (fun l => l !! i)) in E.
  rewrite list_lookup_insert in E by (eapply lookup_lt_Some; eauto). rewrite Hi in E. injection E as ->. eapply slt_irrefl; eauto.
Qed.
Lemma inner_goes D p o : fitting (mkS p false (Some o)) -> (exists q, o = Exiting q) \/ exists D' o', inner D p o D' o'.
Proof.
  intros [_ H]. cbn in H. destruct o as [| |q| |q|q]; [| | | | |eauto]; right.
  - destruct p; cbn in H; try congruence.
    + eexists _, _. apply I_get.
    + destruct (dt D (segpos key) !! key) as [x|] eqn:E; eexists _, _; [eapply I_old; eauto|apply I_new; auto].
    + destruct (dt D (segpos key) !! key) as [x|] eqn:E; eexists _, _; [eapply I_some; eauto|apply I_none; auto].
    + eexists _, _. apply I_seg. reflexivity.
    + eexists _, _. apply I_eget.
    + eexists _, _. apply I_eset.
    + destruct (et D (segpos key) !! key) as [x|] eqn:E; eexists _, _; [eapply I_esome; eauto|apply I_enone; auto].
  - destruct H as (key & v & k & ->). eexists _, _. apply I_replace.
  - destruct H as (key & v & k & ->). destruct (counting q) eqn:E; [|eexists _, _; apply I_add; auto]. destruct q; try discriminate; eexists _, _; [apply I_load|apply I_store].
  - destruct H as (key & k & [->| ->]); eexists _, _; [apply I_drop|apply I_edrop].
  - destruct H as (key & k & ->). destruct (counting q) eqn:E; [|eexists _, _; apply I_counted; auto]. destruct q; try discriminate; eexists _, _; [apply I_cload|apply I_cstore].
Qed.
Lemma inside_goes T D L S ts c hs i p b o : INV (mkSC D L S ts) c hs -> ts !! i = Some (mkS p b (Some o)) -> exists s', sadvance T (mkSC D L S ts) s'.
Proof.
  intros V Hi. pose proof (v_sli _ _ _ V) as I. cbn in I. pose proof (fit_at _ _ _ _ I Hi) as Hf.
  assert (b = false) as ->. { destruct b; auto. destruct Hf as [Hf _]. destruct (Hf eq_refl). discriminate. }
  destruct (inner_goes D p o Hf) as [(q & ->)|(D' & o' & H)].
  - destruct Hf as [_ Hf]. cbn in Hf. destruct (needs p) as [[g m]|] eqn:E; [|congruence]. clear Hf. assert (N : inseg m g (mkS p false (Some (Exiting q))) = 1%nat) by (apply in_seg_one; cbn; congruence).
    assert (Hs : slt (mkS q false None) (mkS p false (Some (Exiting q)))) by (right; unfold wt; cbn; split; [reflexivity|lia]).
    destruct m.
    + pose proof (total_ge (inseg MR g) _ _ _ Hi) as H. rewrite N, <- (l_rd _ _ I) in H. destruct (S g) as [[|n] w pe] eqn:EL; cbn in H; [lia|].
      destruct w. { destruct (l_ex _ _ I g) as [H1 _]; rewrite EL in *; [reflexivity|discriminate]. }
      eexists. eapply sadvances; [eapply M_srunlock; eauto|exact Hi|reflexivity|exact Hs].
    + pose proof (total_ge (inseg MW g) _ _ _ Hi) as H. rewrite N, <- (l_wr _ _ I) in H. destruct (S g) as [n w pe] eqn:EL; cbn in H. destruct w; cbn in H; [|lia].
      eexists. eapply sadvances; [eapply M_swunlock; eauto|exact Hi|reflexivity|exact Hs].
  - eexists. eapply sadvances; [eapply M_inner; eauto|exact Hi|reflexivity|eapply inner_slt; eauto].
Qed.
Lemma total_none (f : sthread A -> nat) ts : (forall i t, ts !! i = Some t -> f t = 0%nat) -> total f ts = 0%nat.
Proof. intros H. apply total_zero. intros x Hx. apply elem_of_list_lookup in Hx as (i & Hi). eauto. Qed.
Lemma rw_free x : rd x = 0%nat -> b2n (wr x) = 0%nat -> b2n (pend x) = 0%nat -> x = free.
Proof. destruct x as [n w pe]. cbn. intros -> H1 H2. destruct w, pe; try discriminate. reflexivity. Qed.
Lemma outside_free D L S ts c hs : INV (mkSC D L S ts) c hs -> (forall i t, ts !! i = Some t -> sspot t = None) -> (forall i t g, ts !! i = Some t -> sann t = true -> needs (scode t) <> Some (g, MW)) ->
  forall g, S g = free.
Proof.
  intros V Hn Ha g. pose proof (v_sli _ _ _ V) as I. cbn in I. apply rw_free.
  - rewrite (l_rd _ _ I). apply total_none. intros i t Hi. unfold inseg. rewrite (Hn _ _ Hi). reflexivity.
  - rewrite (l_wr _ _ I). apply total_none. intros i t Hi. unfold inseg. rewrite (Hn _ _ Hi). reflexivity.
  - rewrite (l_pend _ _ I). apply total_none. intros i t Hi. unfold wantseg. rewrite (Hn _ _ Hi). destruct (sann t) eqn:E; auto. unfold at_seg. destruct (needs (scode t)) as [[g' m]|] eqn:F; auto.
    destruct (decide (g' = g /\ m = MW)) as [[-> ->]|]; auto. destruct (Ha _ _ g Hi E F).
Qed.
Lemma s_stuck (T : Z -> Prop) now s c hs : INV s c hs -> T now -> (forall s', ~ sadvance T s s') ->
  (forall i t, sths s !! i = Some t -> sreturned t) \/ (exists i t, sths s !! i = Some t /\ (scode t = Crash \/ scode t = Hang)).
Proof.
  intros V HT Hno. destruct s as [D L S ts]. cbn in *. pose proof (v_sli _ _ _ V) as I. cbn in I.
  assert (Hn : forall i t, ts !! i = Some t -> sspot t = None). { intros i [p b [o|]] Hi; auto. exfalso. destruct (inside_goes T _ _ _ _ _ _ _ _ _ _ V Hi) as [s' H]. eapply Hno; eauto. }
  assert (Ha : forall i t g, ts !! i = Some t -> sann t = true -> needs (scode t) <> Some (g, MW)).
  { intros i [p b o] g Hi Hb E. cbn in *. subst b. pose proof (Hn _ _ Hi) as Ho. cbn in Ho. subst o.
    assert (Hrd : rd (S g) = 0%nat) by (rewrite (l_rd _ _ I); apply total_none; intros j u Hj; unfold inseg; rewrite (Hn _ _ Hj); reflexivity).
    assert (Hwr : b2n (wr (S g)) = 0%nat) by (rewrite (l_wr _ _ I); apply total_none; intros j u Hj; unfold inseg; rewrite (Hn _ _ Hj); reflexivity).
    pose proof (total_ge (wantseg g) _ _ _ Hi) as Hp. rewrite <- (l_pend _ _ I) in Hp. unfold wantseg in Hp at 1. cbn in Hp. rewrite (at_seg_one _ _ _ E) in Hp.
    destruct (S g) as [n w pe] eqn:EL. cbn in *. subst n. destruct w; [discriminate|]. destruct pe; cbn in Hp; [|lia].
    eapply Hno. eapply sadvances; [eapply M_swlock; eauto|exact Hi|reflexivity|right; unfold wt; cbn; split; [reflexivity|lia]]. }
  pose proof (outside_free _ _ _ _ _ _ V Hn Ha) as Hfree. pose proof (v_good _ _ _ V) as G.
  assert (Hat : forall (i : nat) (t : thread A), ths c !! i = Some t -> exists t', ts !! i = Some t' /\ t = as_seen t').
  { intros i t Hi. rewrite (v_ths _ _ _ V), list_lookup_fmap in Hi. cbn in Hi. destruct (ts !! i); [|discriminate]. injection Hi as <-. eauto. }
  destruct (find_thread (fun t : thread A => ~ returned t)) with (ts := ths c) as [(i & t & Hi & Hr)|Hr].
  - intros t. destruct (returned_dec t); [right|left]; tauto.
  - right. destruct (no_deadlock _ _ _ _ _ _ G Hi Hr) as (j & t' & Hj & Hr' & Hw). destruct (Hat _ _ Hj) as ([p b o] & Hj' & ->). exists j, (mkS p b o). split; auto. cbn.
    pose proof (Hn _ _ Hj') as Ho. cbn in Ho. subst o. pose proof (fit_at _ _ _ _ I Hj') as [Hf _]. cbn in Hf. pose proof (Ha _ _ (Dict, 0%N) Hj') as _.
    destruct b.
    + destruct (Hf eq_refl) as (_ & [(q & k & ->)|(g & E)]); [|destruct (Ha _ _ g Hj' eq_refl E)]. exfalso. unfold waits in Hw. cbn in Hw. rewrite (v_lk _ _ _ V) in Hw. cbn in Hw.
      pose proof (g_pend _ _ _ _ G q) as Hp. pose proof (total_ge (wants q) _ _ _ Hj) as Hq. rewrite <- Hp in Hq. unfold wants in Hq at 1. cbn in Hq. rewrite decide_True in Hq by auto.
      pose proof (g_ex _ _ _ _ G q) as Hx. rewrite (v_lk _ _ _ V) in Hq, Hx. cbn in Hq, Hx. destruct (L q) as [n w pe] eqn:EL. cbn in *. destruct pe; cbn in Hq; [|lia]. destruct w; [destruct (Hx eq_refl); discriminate|].
      assert (n = 0%nat) as -> by (destruct n; [reflexivity|destruct Hw; discriminate]). eapply Hno. eapply sadvances; [eapply M_wlock; eauto|exact Hj'|reflexivity|left; cbn; constructor].
    + clear Hf. destruct (needs p) as [[g m]|] eqn:E.
      * exfalso. destruct m; eapply Hno; (eapply sadvances; [first [eapply M_srlock; [exact Hj'|exact E|apply Hfree]|eapply M_sannounce; [exact Hj'|exact E|apply Hfree]]|exact Hj'|reflexivity|right; unfold wt; cbn; split; [reflexivity|lia]]).
      * assert (Hfs : forall D' p', free_step T D p D' p' -> slt (mkS p' false None) (mkS p false None) -> False) by (intros D' p' H1 H2; eapply Hno; eapply sadvances; [eapply M_free; eauto|exact Hj'|reflexivity|exact H2]).
        pose proof (no_bad_unlock _ _ _ _ _ _ G Hj) as Hb. pose proof (g_ex _ _ _ _ G) as Hx. rewrite (v_lk _ _ _ V) in Hx. cbn in Hx.
        destruct p; cbn in E; try discriminate; auto; exfalso; try (eapply Hfs; [constructor; eauto|left; cbn; constructor]; fail).
        -- destruct Hr'. eexists. reflexivity.
        -- unfold waits in Hw. cbn in Hw. rewrite (v_lk _ _ _ V) in Hw. cbn in Hw. destruct (L pos) as [n w pe] eqn:EL. destruct m; cbn in Hw; destruct w, pe; try tauto; (eapply Hno; eapply sadvances; [first [eapply M_rlock; eauto; fail|eapply M_announce; eauto; fail]|exact Hj'|reflexivity|]).
           ++ left. cbn. constructor.
           ++ right. unfold wt. cbn. split; [reflexivity|lia].
        -- unfold bad_unlock in Hb. cbn in Hb. rewrite (v_lk _ _ _ V) in Hb. cbn in Hb. destruct (L pos) as [n w pe] eqn:EL. specialize (Hx pos). rewrite EL in Hx. cbn in *. destruct m; cbn in Hb.
           ++ destruct n; [tauto|]. destruct w; [destruct (Hx eq_refl); discriminate|]. eapply Hno; eapply sadvances; [eapply M_runlock; eauto|exact Hj'|reflexivity|left; cbn; constructor].
           ++ destruct w; [|tauto]. eapply Hno; eapply sadvances; [eapply M_wunlock; eauto|exact Hj'|reflexivity|left; cbn; constructor].
  - left. intros i t Hi. assert (Ht : ths c !! i = Some (as_seen t)) by (rewrite (v_ths _ _ _ V); exact (seen_at _ _ _ Hi)). destruct (returned_dec (as_seen t)) as [H|H]; [|destruct (Hr i _ Ht H)].
    pose proof (Hn _ _ Hi) as Ho. destruct t as [p b o]. cbn in Ho. subst o. destruct H as [a H]. exists a. exact H.
Qed.
(** ** At the end *)
Lemma s_end s c hs : INV s c hs -> (forall i t, sths s !! i = Some t -> sreturned t) ->
  tables_of (tabs s) (cdb c) /\ map tcode (ths c) = map scode (sths s) /\ (forall p, klk s p = free) /\ (forall g, slk s g = free).
Proof.
  intros V Hr. destruct s as [D L S ts]. cbn in *. pose proof (v_sli _ _ _ V) as I. cbn in I.
  assert (Hn : forall i t, ts !! i = Some t -> sspot t = None).
  { intros i t Hi. destruct (Hr _ _ Hi) as [a E]. pose proof (fit_at _ _ _ _ I Hi) as [_ H]. rewrite E in H. destruct (sspot t) as [[]|]; auto; cbn in H; try congruence; [destruct H as (? & ? & ? & ?)|destruct H as (? & ? & ? & ?)|destruct H as (? & ? & [?|?])|destruct H as (? & ? & ?)]; discriminate. }
  assert (Hc : map tcode (ths c) = map scode ts).
  { rewrite (v_ths _ _ _ V). cbn. rewrite map_map. apply list_eq. intros i. rewrite !list_lookup_fmap. destruct (ts !! i) as [t|] eqn:Hi; auto. cbn. rewrite (Hn _ _ Hi). reflexivity. }
  split; [|split; [exact Hc|split]].
  - pose proof (v_dr _ _ _ V) as R. cbn in R. split; [|split; [|split]].
    + intros key. symmetry. apply (r_rest _ _ _ R). intros i t v Hi. destruct t as [p b o]. pose proof (Hn _ _ Hi) as Ho. cbn in Ho. subst o. rewrite pend_nw by congruence. discriminate.
    + intros key. symmetry. apply (v_exps _ _ _ V).
    + symmetry. apply (v_cnt _ _ _ V).
    + apply (r_placed _ _ _ R).
  - intros p. rewrite <- (v_lk _ _ _ V : lk c = L). eapply all_free; [apply (v_good _ _ _ V)|]. intros i t Hi. apply (f_equal (fun l => l !! i)) in Hc. rewrite !list_lookup_fmap, Hi in Hc. cbn in Hc.
    destruct (ts !! i) as [t'|] eqn:Hi'; [|discriminate]. injection Hc as Hc. destruct (Hr _ _ Hi') as [a E]. exists a. congruence.
  - eapply outside_free; [exact V|exact Hn|]. intros i t g Hi _ E. destruct (Hr _ _ Hi) as [a E']. rewrite E' in E. discriminate.
Qed.
End WithParams.

(** ** For clients *)
Section Clients.
Context {P : Setup} (T : Z -> Prop) (D : tables) (d : db) (cs : list (list command)) (s : sconf (list rdata)) (HD : tables_of D d) (R : rtc (mstep T) (sstart D (map client cs)) s).
Lemma shard_inv : exists c hs, rtc (cstep T) (clients d cs) c /\ INV s c hs.
Proof.
  eapply inv_steps; [|exact R]. apply inv_start; auto. apply Forall_forall. intros p Hp. apply elem_of_list_In, elem_of_list_fmap in Hp as (cmds & -> & _). apply wf_client. auto.
Qed.
Lemma shard_atomic : exists c, rtc (cstep T) (clients d cs) c /\ seen s c.
Proof. destruct shard_inv as (c & hs & H & V). exists c. split; auto. eapply inv_seen; eauto. Qed.
Lemma shard_exclusive i j t u g : i <> j -> sths s !! i = Some t -> sths s !! j = Some u -> in_segment g t -> in_segment g u -> only_reads t /\ only_reads u.
Proof. destruct shard_inv as (c & hs & _ & V). eapply inv_exclusive; eauto. Qed.
Lemma shard_no_bad i t : sths s !! i = Some t -> ~ bad_exit s t.
Proof. destruct shard_inv as (c & hs & _ & V). eapply inv_no_bad; eauto. Qed.
Lemma shard_stuck now : T now -> (forall s', ~ sadvance T s s') ->
  (forall i t, sths s !! i = Some t -> sreturned t) \/ (exists i t, sths s !! i = Some t /\ (scode t = Crash \/ scode t = Hang)).
Proof. destruct shard_inv as (c & hs & _ & V). eapply s_stuck; eauto. Qed.
Lemma shard_end : (forall i t, sths s !! i = Some t -> sreturned t) -> exists c, rtc (cstep T) (clients d cs) c /\
  tables_of (tabs s) (cdb c) /\ map tcode (ths c) = map scode (sths s) /\ (forall p, klk s p = free) /\ (forall g, slk s g = free).
Proof. intros Hr. destruct shard_inv as (c & hs & H & V). exists c. split; auto. eapply s_end; eauto. Qed.
End Clients.
