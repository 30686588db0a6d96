(** The linked list implements a sequence. *)
From Verif Require Export SpecDList.

Ltac els :=
  cbn [map app fst] in *;
  repeat first [rewrite elem_of_app|rewrite elem_of_cons|rewrite elem_of_nil];
  repeat match goal with H : context [_ ∈ _] |- _ => first [rewrite elem_of_app in H|rewrite elem_of_cons in H|rewrite elem_of_nil in H] end; tauto.

Lemma nd_cons {A} (x : A) l : NoDup (x :: l) <-> x ∉ l /\ NoDup l.
Proof. split; [intros H; inversion H; auto|]. intros [H1 H2]. constructor; auto. Qed.

Definition fst_or (xs : list (nat * val)) (b : nat) : nat := match xs with (x, _) :: _ => x | [] => b end.
Fixpoint last_or (a : nat) (xs : list (nat * val)) : nat := match xs with [] => a | (x, _) :: r => last_or x r end.

Lemma last_or_app a xs x v : last_or a (xs ++ [(x, v)]) = x.
Proof. revert a. induction xs as [|[y w] xs IH]; intros a; cbn; auto. Qed.
Lemma last_or_in a xs : last_or a xs ∈ a :: map fst xs.
Proof.
  revert a. induction xs as [|[y w] xs IH]; intros a; cbn; [left|]. right. apply IH.
Qed.
Lemma fst_or_in xs b : fst_or xs b ∈ map fst xs ++ [b].
Proof. destruct xs as [|[y w] xs]; cbn; left. Qed.

(** ** Segments *)
Lemma dseg_next s a xs b : dseg s a xs b -> nxt s a = Some (fst_or xs b).
Proof. destruct xs as [|[x v] xs]; cbn; tauto. Qed.
Lemma dseg_prev s a xs b : dseg s a xs b -> prv s b = Some (last_or a xs).
Proof. revert a. induction xs as [|[x v] xs IH]; cbn; intros a H; [tauto|]. apply IH. tauto. Qed.
Lemma dseg_split s a xs x v ys b : dseg s a (xs ++ (x, v) :: ys) b <-> dseg s a xs x /\ vl s x = v /\ dseg s x ys b.
Proof.
  revert a. induction xs as [|[y w] xs IH]; intros a; cbn; [tauto|]. rewrite IH. tauto.
Qed.
Lemma dseg_frame s s' a xs b : dseg s a xs b ->
  (forall c, c ∈ a :: map fst xs -> nxt s' c = nxt s c) ->
  (forall c, c ∈ map fst xs ++ [b] -> prv s' c = prv s c) ->
  (forall c, c ∈ map fst xs -> vl s' c = vl s c) -> dseg s' a xs b.
Proof.
  revert a. induction xs as [|[x v] xs IH]; intros a; cbn; intros H Hn Hp Hv.
  - rewrite Hn, Hp by left. auto.
  - destruct H as (H1 & H2 & H3 & H4). rewrite Hn, Hp, Hv by left. repeat split; auto.
    apply IH; auto; intros c Hc; [apply Hn|apply Hp|apply Hv]; right; auto.
Qed.

(** ** Inserting a node *)
(** [n] is a new node between [a] and [b]. *)
Definition linked_in (s : lst) (a b : nat) (v : val) (s' : lst) : Prop :=
  hd s' = hd s /\ tl s' = tl s /\ nfree s' = S (nfree s) /\ ln s' = ln s + 1 /\
  exists na nb, cells s !! a = Some na /\ cells s !! b = Some nb /\
  forall c, cells s' !! c =
    if decide (c = nfree s) then Some (mkNode (Some a) (Some b) v)
    else if decide (c = a) then Some (mkNode (nprev na) (Some (nfree s)) (nval na))
    else if decide (c = b) then Some (mkNode (Some (nfree s)) (nnext nb) (nval nb))
    else cells s !! c.
Lemma linked_in_fields s a b v s' : linked_in s a b v s' -> a <> b -> forall c,
  nxt s' c = (if decide (c = nfree s) then Some b else if decide (c = a) then Some (nfree s) else nxt s c) /\
  prv s' c = (if decide (c = nfree s) then Some a else if decide (c = b) then Some (nfree s) else prv s c) /\
  vl s' c = (if decide (c = nfree s) then v else vl s c).
Proof.
  intros (_ & _ & _ & _ & na & nb & Ha & Hb & H) Hab c. unfold nxt, prv, vl. rewrite H.
  repeat case_decide; subst; try congruence; cbn; rewrite ?Ha, ?Hb; auto.
Qed.
Lemma own_app s xs ys : own s (xs ++ ys) = hd s :: map fst xs ++ map fst ys ++ [tl s].
Proof. unfold own. rewrite map_app, <- app_assoc. auto. Qed.
Lemma seg_parts s xs ys : rep s (xs ++ ys) ->
  dseg s (hd s) xs (fst_or ys (tl s)) /\ dseg s (last_or (hd s) xs) ys (tl s).
Proof.
  intros [H _ _ _ _ _ _]. revert H. generalize (hd s). induction xs as [|[x v] xs IH]; intros a; cbn.
  - intros H. split; auto. split; [apply (dseg_next _ _ _ _ H)|]. destruct ys as [|[y w] ys]; cbn in *; tauto.
  - intros (H1 & H2 & H3 & H4). apply IH in H4 as [H4 H5]. auto.
Qed.
Lemma parts_seg s a xs ys b : dseg s a xs (fst_or ys b) -> dseg s (last_or a xs) ys b -> dseg s a (xs ++ ys) b.
Proof.
  revert a. induction xs as [|[x v] xs IH]; intros a; cbn; auto. intros (H1 & H2 & H3 & H4) H5. auto.
Qed.
Lemma last_or_own s xs ys : last_or (hd s) xs ∈ own s (xs ++ ys).
Proof. rewrite own_app. pose proof (last_or_in (hd s) xs) as H. apply elem_of_cons in H as [H|H]; [rewrite H; left|]. right. apply elem_of_app. auto. Qed.
Lemma fst_or_own s xs ys : fst_or ys (tl s) ∈ own s (xs ++ ys).
Proof. rewrite own_app. right. apply elem_of_app. right. apply fst_or_in. Qed.
Lemma nodup_between s xs ys : NoDup (own s (xs ++ ys)) -> last_or (hd s) xs <> fst_or ys (tl s) /\
  (forall c, c ∈ hd s :: map fst xs -> c ∈ map fst ys ++ [tl s] -> False).
Proof.
  rewrite own_app. intros H. change (hd s :: map fst xs ++ map fst ys ++ [tl s]) with ((hd s :: map fst xs) ++ (map fst ys ++ [tl s])) in H.
  apply NoDup_app in H as (_ & H & _). split; [|intros c H1 H2; exact (H c H1 H2)].
  intros E. apply (H (last_or (hd s) xs)); [apply last_or_in|]. rewrite E. apply fst_or_in.
Qed.
Lemma evolves_refl s xs : evolves s xs s xs.
Proof. repeat split; auto. Qed.
Lemma evolves_trans s xs s1 xs1 s2 xs2 : rep s xs -> evolves s xs s1 xs1 -> evolves s1 xs1 s2 xs2 -> evolves s xs s2 xs2.
Proof.
  intros Hr (H1 & H2 & H3 & H4 & H5) (G1 & G2 & G3 & G4 & G5). repeat apply conj; try congruence; try lia.
  - intros a Ha. apply G4 in Ha as [Ha|Ha]; auto. right. lia.
  - intros a Ha Hn. rewrite G5, H5; auto; [lia|]. unfold own in *. rewrite H1, H2. intros Hi.
    apply elem_of_cons in Hi as [->|Hi]; [apply Hn; left|]. apply elem_of_app in Hi as [Hi|Hi].
    + apply H4 in Hi as [Hi|Hi]; [|lia]. apply Hn. right. apply elem_of_app. auto.
    + apply Hn. right. apply elem_of_app. auto.
Qed.
Lemma link_rep s xs ys v s' : rep s (xs ++ ys) -> linked_in s (last_or (hd s) xs) (fst_or ys (tl s)) v s' ->
  rep s' (xs ++ (nfree s, v) :: ys) /\ evolves s (xs ++ ys) s' (xs ++ (nfree s, v) :: ys).
Proof.
  intros Hr Hl. destruct (seg_parts _ _ _ Hr) as [S1 S2]. destruct Hr as [R1 R2 R3 R4 R5 R6 R7].
  destruct (nodup_between _ _ _ R4) as [Hne Hd]. pose proof (linked_in_fields _ _ _ _ _ Hl Hne) as F.
  destruct Hl as (L1 & L2 & L3 & L4 & na & nb & La & Lb & L).
  set (n := nfree s) in *. set (a := last_or (hd s) xs) in *. set (b := fst_or ys (tl s)) in *.
  assert (Hfr : forall c, c ∈ own s (xs ++ ys) -> c <> n).
  { intros c Hc ->. apply R5 in Hc as [_ Hc]. unfold n in Hc. lia. }
  assert (Ia : a ∈ own s (xs ++ ys)) by apply last_or_own.
  assert (Ib : b ∈ own s (xs ++ ys)) by apply fst_or_own.
  assert (O : own s' (xs ++ (n, v) :: ys) = hd s :: map fst xs ++ n :: map fst ys ++ [tl s]).
  { rewrite own_app, L1, L2. auto. }
  assert (Hin : forall c, c ∈ own s' (xs ++ (n, v) :: ys) <-> c = n \/ c ∈ own s (xs ++ ys)).
  { intros c. rewrite O, own_app. els. }
  assert (Hx : forall c, c ∈ hd s :: map fst xs -> c ∈ own s (xs ++ ys)) by (intros c Hc; rewrite own_app; els).
  assert (Hy : forall c, c ∈ map fst ys ++ [tl s] -> c ∈ own s (xs ++ ys)) by (intros c Hc; rewrite own_app; els).
  split; [split|].
  - rewrite L1, L2. apply dseg_split. split; [|split].
    + (* the segment before *)
      revert S1. clear - F Hd Hfr Hx Hy R4 Hne. intros S1.
      assert (G : forall a0 l, dseg s a0 l b -> (exists pre, hd s :: map fst xs = pre ++ a0 :: map fst l) -> last_or a0 l = a -> dseg s' a0 l n).
      { intros a0 l. revert a0. induction l as [|[x w] l IH]; intros a0 Hs [pre Hpre] Hlast; cbn in *.
        - subst a0. destruct (F a) as (F1 & _ & _). destruct (F n) as (_ & F2 & _).
          rewrite F1, F2, !decide_False by (apply Hfr, Hx; rewrite Hpre; els). rewrite !decide_True by auto. auto.
        - destruct Hs as (H1 & H2 & H3 & H4).
          assert (I0 : a0 ∈ hd s :: map fst xs) by (rewrite Hpre; els).
          assert (I1 : x ∈ hd s :: map fst xs) by (rewrite Hpre; els).
          destruct (F a0) as (F1 & _ & _). destruct (F x) as (_ & F2 & F3).
          rewrite F1, F2, F3. rewrite !(decide_False (P := _ = n)) by (apply Hfr, Hx; auto).
          assert (Na : a0 <> a).
          { intros ->. assert (Hnd : NoDup (hd s :: map fst xs)).
            { rewrite own_app in R4. change (hd s :: map fst xs ++ map fst ys ++ [tl s]) with ((hd s :: map fst xs) ++ (map fst ys ++ [tl s])) in R4.
              apply NoDup_app in R4 as [R4 _]. auto. }
            rewrite Hpre in Hnd. apply NoDup_app in Hnd as (_ & _ & Hnd). apply nd_cons in Hnd as [Hnd _]. apply Hnd.
            rewrite <- Hlast at 1. apply last_or_in. }
          assert (Nb : x <> b).
          { intros ->. apply (Hd b); auto. apply fst_or_in. }
          rewrite !decide_False by auto. repeat split; auto. apply IH; auto. exists (pre ++ [a0]). rewrite <- app_assoc. auto. }
      apply G; auto. exists []. auto.
    + destruct (F n) as (_ & _ & F3). rewrite F3, decide_True; auto.
    + (* the segment after *)
      assert (Hbn : b <> n) by auto. assert (Han : a <> n) by auto.
      destruct ys as [|[y w] ys]; cbn in *.
      * subst b. destruct (F n) as (F1 & _ & _). destruct (F (tl s)) as (_ & F2 & _). rewrite F1, F2, decide_True, decide_False, decide_True; auto.
      * destruct S2 as (H1 & H2 & H3 & H4). destruct (F n) as (F1 & _ & _). destruct (F b) as (_ & F2 & F3).
        subst b. repeat apply conj; [rewrite F1, decide_True; auto|rewrite F2, decide_False, decide_True; auto|rewrite F3, decide_False; auto|].
        apply (dseg_frame s); auto.
        { intros c Hc. destruct (F c) as (F4 & _ & _). rewrite F4, !decide_False; auto.
          - intros ->. apply (Hd a); [apply last_or_in|]. els.
          - apply Hfr, Hy. els. }
        { intros c Hc. destruct (F c) as (_ & F4 & _). rewrite F4, !decide_False; auto.
          - intros ->. rewrite own_app in R4. cbn in R4. apply nd_cons in R4 as [_ R4]. apply NoDup_app in R4 as (_ & _ & R4).
            apply nd_cons in R4 as [R4 _]. auto.
          - apply Hfr, Hy. els. }
        { intros c Hc. destruct (F c) as (_ & _ & F4). rewrite F4, !decide_False; auto.
          apply Hfr, Hy. els. }
  - rewrite L1. destruct (F (hd s)) as (_ & F2 & _). rewrite F2, !decide_False; auto.
    + intros E. apply (Hd b); [rewrite <- E; left|apply fst_or_in].
    + apply Hfr, Hx. left.
  - rewrite L2. destruct (F (tl s)) as (F1 & _ & _). rewrite F1, !decide_False; auto.
    + intros E. apply (Hd a); [apply last_or_in|rewrite <- E; apply elem_of_app; right; left].
    + apply Hfr, Hy. apply elem_of_app. right. left.
  - rewrite O. rewrite own_app in R4, Hfr. change (hd s :: map fst xs ++ n :: map fst ys ++ [tl s]) with ((hd s :: map fst xs) ++ n :: (map fst ys ++ [tl s])).
    rewrite <- Permutation_middle. apply nd_cons. split; [|exact R4]. intros Hc. apply (Hfr n); auto.
  - intros c Hc. rewrite L, L3. apply Hin in Hc as [->|Hc].
    + rewrite decide_True by auto. split; [eauto|lia].
    + apply R5 in Hc as [Hc1 Hc2]. split; [|lia]. repeat case_decide; eauto.
  - intros c Hc. rewrite L3 in Hc. rewrite L, !decide_False; [apply R6; lia|..].
    + intros ->. apply R5 in Ib as [_ Ib]. lia.
    + intros ->. apply R5 in Ia as [_ Ia]. lia.
    + unfold n. lia.
  - rewrite L4, R7. unfold zlen. rewrite !app_length. cbn. lia.
  - repeat apply conj; auto; [lia| |].
    + intros c Hc. rewrite map_app in *. cbn in Hc. apply elem_of_app in Hc as [Hc|Hc]; [left; els|].
      apply elem_of_cons in Hc as [->|Hc]; [right; unfold n; lia|left; els].
    + intros c Hc Hn. rewrite L, !decide_False; auto; [intros ->; auto|intros ->; auto|unfold n; lia].
Qed.

(** ** Removing a node *)
Definition unlinked (s : lst) (a b : nat) (s' : lst) : Prop :=
  hd s' = hd s /\ tl s' = tl s /\ nfree s' = nfree s /\ ln s' = ln s - 1 /\
  exists na nb, cells s !! a = Some na /\ cells s !! b = Some nb /\
  forall c, cells s' !! c =
    if decide (c = a) then Some (mkNode (nprev na) (Some b) (nval na))
    else if decide (c = b) then Some (mkNode (Some a) (nnext nb) (nval nb))
    else cells s !! c.
Lemma unlinked_fields s a b s' : unlinked s a b s' -> a <> b -> forall c,
  nxt s' c = (if decide (c = a) then Some b else nxt s c) /\
  prv s' c = (if decide (c = b) then Some a else prv s c) /\ vl s' c = vl s c.
Proof.
  intros (_ & _ & _ & _ & na & nb & Ha & Hb & H) Hab c. unfold nxt, prv, vl. rewrite H.
  repeat case_decide; subst; try congruence; cbn; rewrite ?Ha, ?Hb; auto.
Qed.
Lemma unlink_rep s xs x v ys s' : rep s (xs ++ (x, v) :: ys) -> unlinked s (last_or (hd s) xs) (fst_or ys (tl s)) s' ->
  rep s' (xs ++ ys) /\ evolves s (xs ++ (x, v) :: ys) s' (xs ++ ys).
Proof.
  intros Hr Hl. destruct (seg_parts _ _ _ Hr) as [S1 S2]. destruct Hr as [R1 R2 R3 R4 R5 R6 R7].
  assert (Hne : last_or (hd s) xs <> fst_or ys (tl s) /\ (forall c, c ∈ hd s :: map fst xs -> c ∈ map fst ys ++ [tl s] -> False)).
  { apply nodup_between. rewrite own_app in *. cbn in R4.
    change (hd s :: map fst xs ++ x :: map fst ys ++ [tl s]) with ((hd s :: map fst xs) ++ x :: (map fst ys ++ [tl s])) in R4.
    rewrite <- Permutation_middle in R4. apply nd_cons in R4 as [_ R4]. exact R4. }
  destruct Hne as [Hne Hd]. pose proof (unlinked_fields _ _ _ _ Hl Hne) as F.
  destruct Hl as (L1 & L2 & L3 & L4 & na & nb & La & Lb & L).
  set (a := last_or (hd s) xs) in *. set (b := fst_or ys (tl s)) in *.
  assert (O : own s' (xs ++ ys) = hd s :: map fst xs ++ map fst ys ++ [tl s]) by (rewrite own_app, L1, L2; auto).
  assert (Hin : forall c, c ∈ own s' (xs ++ ys) -> c ∈ own s (xs ++ (x, v) :: ys)).
  { intros c. rewrite O, own_app. cbn. els. }
  assert (Ia : a ∈ own s (xs ++ (x, v) :: ys)) by apply last_or_own.
  assert (Ib : b ∈ own s (xs ++ (x, v) :: ys)).
  { rewrite own_app. cbn. pose proof (fst_or_in ys (tl s)) as H. fold b in H. els. }
  assert (NDx : NoDup (hd s :: map fst xs)).
  { rewrite own_app in R4. change (hd s :: map fst xs ++ map fst ((x, v) :: ys) ++ [tl s]) with ((hd s :: map fst xs) ++ (map fst ((x, v) :: ys) ++ [tl s])) in R4.
    apply NoDup_app in R4 as [R4 _]. auto. }
  assert (NDy : NoDup (map fst ys ++ [tl s])).
  { rewrite own_app in R4. change (hd s :: map fst xs ++ map fst ((x, v) :: ys) ++ [tl s]) with ((hd s :: map fst xs) ++ (x :: map fst ys ++ [tl s])) in R4.
    apply NoDup_app in R4 as (_ & _ & R4). apply nd_cons in R4 as [_ R4]. auto. }
  split; [split|].
  - rewrite L1, L2. apply parts_seg; fold a; fold b.
    + cbn in S1.
      assert (G : forall a0 l, dseg s a0 l x -> (exists pre, hd s :: map fst xs = pre ++ a0 :: map fst l) -> last_or a0 l = a -> dseg s' a0 l b).
      { intros a0 l. revert a0. induction l as [|[y w] l IH]; intros a0 Hs [pre Hpre] Hlast; cbn in *.
        - subst a0. destruct (F a) as (F1 & _ & _). destruct (F b) as (_ & F2 & _). rewrite F1, F2, !decide_True; auto.
        - destruct Hs as (H1 & H2 & H3 & H4).
          assert (I0 : a0 ∈ hd s :: map fst xs) by (rewrite Hpre; els).
          assert (I1 : y ∈ hd s :: map fst xs) by (rewrite Hpre; els).
          destruct (F a0) as (F1 & _ & _). destruct (F y) as (_ & F2 & F3). rewrite F1, F2, F3.
          assert (Na : a0 <> a).
          { intros ->. rewrite Hpre in NDx. apply NoDup_app in NDx as (_ & _ & NDx). apply nd_cons in NDx as [NDx _]. apply NDx.
            rewrite <- Hlast at 1. apply last_or_in. }
          assert (Nb : y <> b) by (intros ->; apply (Hd b); auto; apply fst_or_in).
          rewrite !decide_False by auto. repeat split; auto. apply IH; auto. exists (pre ++ [a0]). rewrite <- app_assoc. auto. }
      apply G; auto. exists []. auto.
    + cbn in S2. destruct S2 as (_ & _ & _ & S2). destruct (F a) as (F1 & _ & _). destruct (F b) as (_ & F2 & F3).
      destruct ys as [|[y w] ys]; cbn in *.
      * subst b. rewrite F1, F2, !decide_True; auto.
      * destruct S2 as (H1 & H2 & H3 & H4). subst b. repeat apply conj; [rewrite F1, decide_True; auto|rewrite F2, decide_True; auto|rewrite F3; auto|].
        apply (dseg_frame s); auto.
        { intros c Hc. destruct (F c) as (F4 & _ & _). rewrite F4, decide_False; auto. intros ->.
          apply (Hd a); [apply last_or_in|]. els. }
        { intros c Hc. destruct (F c) as (_ & F4 & _). rewrite F4, decide_False; auto. intros ->.
          apply nd_cons in NDy as [NDy _]. auto. }
        { intros c _. apply F. }
  - rewrite L1. destruct (F (hd s)) as (_ & F2 & _). rewrite F2, decide_False; auto.
    intros E. apply (Hd b); [rewrite <- E; left|apply fst_or_in].
  - rewrite L2. destruct (F (tl s)) as (F1 & _ & _). rewrite F1, decide_False; auto.
    intros E. apply (Hd a); [apply last_or_in|rewrite <- E; apply elem_of_app; right; left].
  - rewrite O. change (hd s :: map fst xs ++ map fst ys ++ [tl s]) with ((hd s :: map fst xs) ++ (map fst ys ++ [tl s])).
    apply NoDup_app. auto.
  - intros c Hc. apply Hin in Hc. apply R5 in Hc as [Hc1 Hc2]. rewrite L, L3. split; auto. repeat case_decide; eauto.
  - intros c Hc. rewrite L3 in Hc. rewrite L, !decide_False; [apply R6; lia|..].
    + intros ->. apply R5 in Ib as [_ Ib]. lia.
    + intros ->. apply R5 in Ia as [_ Ia]. lia.
  - rewrite L4, R7. unfold zlen. rewrite !app_length. cbn. lia.
  - repeat apply conj; auto; [lia| |].
    + intros c Hc. left. rewrite map_app in *. cbn. els.
    + intros c Hc Hn. rewrite L, !decide_False; auto; intros ->; auto.
Qed.
