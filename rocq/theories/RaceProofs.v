(** Conflicting accesses are ordered by the locks. *)
From Verif Require Export SpecRace StableProofs ShardProofs.

(** From A at n to B at m, the two never together: A ends, then or at the same time B begins. *)
Lemma handover (A B : nat -> Prop) n m : (forall k, Decision (A k)) -> (forall k, Decision (B k)) -> (n <= m)%nat -> A n -> B m -> (forall k, (n <= k <= m)%nat -> A k -> B k -> False) ->
  exists p q, (n <= p <= q)%nat /\ (q < m)%nat /\ A p /\ ~ A (S p) /\ ~ B q /\ B (S q).
Proof.
  intros DA DB Hnm Ha Hb Hx.
  assert (Hq : exists q, (n <= q < m)%nat /\ ~ B q /\ B (S q)).
  { revert m Hnm Hb Hx. induction m as [|m IH]; intros Hnm Hb Hx.
    - assert (n = 0%nat) as -> by lia. destruct (Hx 0%nat); auto; lia.
    - destruct (decide (n = S m)) as [->|Hne]; [destruct (Hx (S m)); auto; lia|]. destruct (DB m) as [Hm|Hm]; [|exists m; split; [lia|auto]].
      destruct IH as (q & Hq & H1 & H2); auto; [lia| |exists q; split; [lia|auto]]. intros k Hk. apply Hx. lia. }
  destruct Hq as (q & Hq & Hq1 & Hq2). assert (Hna : ~ A (S q)) by (intros H; apply (Hx (S q)); auto; lia).
  assert (Hp : exists p, (n <= p <= q)%nat /\ A p /\ ~ A (S p)).
  { clear Hb Hx Hq1 Hq2. assert (Hle : (n <= q)%nat) by lia. clear Hq. induction q as [|q IH].
    - assert (n = 0%nat) as -> by lia. exists 0%nat. auto.
    - destruct (DA (S q)) as [H|H]; [exists (S q); auto|]. destruct (decide (n = S q)) as [->|Hne]; [contradiction|]. destruct IH as (p & Hp & H1); auto; [lia|]. exists p. split; [lia|auto]. }
  destruct Hp as (p & Hp & Hp1 & Hp2). exists p, q. split; [lia|]. split; [lia|auto].
Qed.

Section Values.
Context {P : Setup} (T : Z -> Prop) (d : db) (cs : list (list command)) (f : nat -> conf (list rdata)) (N : nat).
Hypothesis (F0 : f 0%nat = clients d cs) (FX : execution T f N).
Lemma ghost M : (M <= N)%nat -> exists h : nat -> list lstate, (forall n, (n <= M)%nat -> goodi (no_setnx cs) (f n) (h n)) /\
  forall n i x, (n < M)%nat -> h n !! i = Some x -> exists x', h (S n) !! i = Some x' /\ kept i (f n) (f (S n)) x x'.
Proof.
  induction M as [|M IH]; intros HM.
  - destruct (goodi_start (no_setnx cs) d cs) as [hs G]; [auto|]. exists (fun _ => hs). split; [|intros; lia]. intros n Hn. assert (n = 0%nat) as -> by lia. rewrite F0. auto.
  - destruct IH as (h & H1 & H2); [lia|]. destruct (goodi_step T _ _ _ _ (H1 M (le_n M)) (FX M ltac:(lia))) as (hs' & G' & K').
    exists (fun n => if decide (n = S M) then hs' else h n). split.
    + intros n Hn. case_decide as E; [subst; auto|apply H1; lia].
    + intros n i x Hn Hx. rewrite decide_False in Hx by lia. destruct (decide (n = M)) as [->|Hne].
      * rewrite decide_True by auto. auto.
      * rewrite decide_False by lia. apply H2; auto. lia.
Qed.
Lemma held_up l m x p m' x' : lstep x p m' true x' -> held m l x = 0%nat -> held m l x' = 1%nat -> m' = m /\ p = l.
Proof.
  intros H. inversion H; subst; cbn; repeat case_decide; intros; try discriminate; try lia.
  - destruct_and!. subst. split; auto. match goal with H : _ ∈ [_] |- _ => apply elem_of_list_singleton in H; auto end.
  - destruct_and!. subst. split; auto. match goal with H : _ ∈ _ ++ _ |- _ => apply elem_of_app in H as [H|H]; [exfalso; tauto|apply elem_of_list_singleton in H; auto] end.
Qed.
Lemma held_shrunk m l m' r : held m l (shrunk m' r) = if decide (m = m' /\ l ∈ r) then 1%nat else 0%nat.
Proof. destruct r; cbn; auto. case_decide; auto. destruct_and!. set_solver. Qed.
Lemma held_down l m x p m' x' : lstep x p m' false x' -> held m l x = 1%nat -> held m l x' = 0%nat -> m' = m /\ p = l.
Proof.
  intros H. inversion H; subst; rewrite held_shrunk; cbn; repeat case_decide; intros; try discriminate; try lia; destruct_and!; subst; split; auto;
    match goal with H : _ ∈ _ :: _ |- _ => apply elem_of_cons in H as [H|H]; [auto|exfalso; tauto] end.
Qed.
Lemma held_no_up l m x p m' x' : lstep x p m' false x' -> held m l x = 0%nat -> held m l x' = 1%nat -> False.
Proof.
  intros H. inversion H; subst; rewrite held_shrunk; cbn; repeat case_decide; intros; try discriminate; try lia; destruct_and!; subst; set_solver.
Qed.
Lemma held_no_down l m x p m' x' : lstep x p m' true x' -> held m l x = 1%nat -> held m l x' = 0%nat -> False.
Proof.
  intros H. inversion H; subst; cbn; repeat case_decide; intros; try discriminate; try lia; destruct_and!; subst; set_solver.
Qed.
Lemma held_cases m l x : held m l x = 1%nat \/ held m l x = 0%nat.
Proof. destruct x; cbn; auto; case_decide; auto. Qed.
Lemma one_mover (c c' : conf (list rdata)) i j : cstep T c c' -> i <> j -> ths c' !! i <> ths c !! i -> ths c' !! j <> ths c !! j -> False.
Proof. intros H Hn Hi Hj. destruct H; cbn in *; match type of Hi with <[?k:=_]> _ !! _ <> _ => destruct (decide (k = i)); [rewrite list_lookup_insert_ne in Hj by congruence|rewrite list_lookup_insert_ne in Hi by congruence] end; auto. Qed.
Lemma same_length (c c' : conf (list rdata)) : cstep T c c' -> length (ths c') = length (ths c).
Proof. intros H. destruct H; cbn; apply insert_length. Qed.
Lemma rel_gives (c c' : conf (list rdata)) i t l m k : cstep T c c' -> ths c !! i = Some t -> tcode t = Rel l m k -> ths c' !! i <> ths c !! i -> gives i l m c c'.
Proof.
  intros H Ht E Hc. split; [exact Hc|]. destruct H as [? ? ? j ? ? ? Hj Hp|? ? ? j ? ? ? Hj ?|? ? ? j ? ? ? Hj ?|? ? ? j ? ? Hj ?|? ? ? j ? ? ? ? Hj El|? ? ? j ? ? ? ? Hj El]; cbn in *;
    (destruct (decide (j = i)) as [->|Hn]; [|rewrite list_lookup_insert_ne in Hc by auto; congruence]); rewrite Ht in Hj; injection Hj as ->; cbn in E; try discriminate E.
  - subst. inversion Hp.
  - injection E as -> <- ->. unfold fupd, released. rewrite N.eqb_refl, El. reflexivity.
  - injection E as -> <- ->. unfold fupd, released. rewrite N.eqb_refl, El. split; reflexivity.
Qed.
Lemma acq_takes (c c' : conf (list rdata)) i t l m k : cstep T c c' -> ths c !! i = Some t -> tcode t = Acq l m k -> ths c' !! i = Some (mkT k false) -> ths c' !! i <> ths c !! i -> takes i l m c c'.
Proof.
  intros H Ht E Hk Hc. split; [exact Hc|]. destruct H as [? ? ? j ? ? ? Hj Hp|? ? ? j ? ? ? Hj El|? ? ? j ? ? ? Hj ?|? ? ? j ? ? Hj El|? ? ? j ? ? ? ? Hj El|? ? ? j ? ? ? ? Hj El]; cbn in *;
    (destruct (decide (j = i)) as [->|Hn]; [|rewrite list_lookup_insert_ne in Hc by auto; congruence]); pose proof (lookup_lt_Some _ _ _ Ht); rewrite list_lookup_insert in Hk by auto; rewrite Ht in Hj; injection Hj as ->; cbn in E; try discriminate E; try discriminate Hk.
  - subst. inversion Hp.
  - injection E as -> <- ->. unfold fupd, acquired. rewrite N.eqb_refl, El. split; reflexivity.
  - injection E as -> <- ->. unfold fupd, acquired. rewrite N.eqb_refl, El. split; [|split]; reflexivity.
Qed.
Lemma works_locks i key n h x : (n <= N)%nat -> no_setnx cs i ->
  (forall n, (n <= N)%nat -> goodi (no_setnx cs) (f n) (h n)) -> (forall n i x, (n < N)%nat -> h n !! i = Some x -> exists x', h (S n) !! i = Some x' /\ kept i (f n) (f (S n)) x x') ->
  works_on f i key n -> h n !! i = Some x -> exists m, locks m key x.
Proof.
  intros Hn Hi HG HK (n0 & t0 & Hle & Ht0 & Hrw & Hno). destruct (get_hi _ i (f n0) (h n0) t0 (HG n0 ltac:(lia)) Ht0) as [x0 Hx0].
  assert (L : exists m, locks m key x0). { destruct Hrw as [Hr|Hr]; [exact (read_locks T _ i (f n0) (h n0) t0 x0 key Hi (HG n0 ltac:(lia)) Ht0 Hx0 Hr)|exists MW; exact (write_locks T _ i (f n0) (h n0) t0 x0 key (HG n0 ltac:(lia)) Ht0 Hx0 Hr)]. }
  destruct L as [m L]. intros Hx. exists m.
  assert (X : forall k, (n0 + k <= n)%nat -> exists y, h (n0 + k)%nat !! i = Some y /\ locks m key y).
  { induction k as [|k IH]; intros Hk; [rewrite Nat.add_0_r; eauto|]. destruct IH as (y & Hy & Ly); [lia|]. destruct (HK (n0 + k)%nat i y ltac:(lia) Hy) as (y' & Hy' & K).
    rewrite Nat.add_succ_r. exists y'. split; auto. destruct K as [->|(Mv & t & p & m' & k' & Ht & Ht' & [[E Hl]|[E Hl]])]; auto.
    - destruct Ly as (l & -> & Hli). inversion Hl; subst. eexists. split; [reflexivity|]. apply elem_of_app. auto.
    - destruct (Hno (n0 + k)%nat p m' ltac:(lia)). exact (rel_gives _ _ _ _ _ _ _ (FX (n0 + k)%nat ltac:(lia)) Ht E Mv). }
  destruct (X (n - n0)%nat ltac:(lia)) as (y & Hy & Ly). replace (n0 + (n - n0))%nat with n in Hy by lia. congruence.
Qed.
Lemma races_values i j key n m : no_setnx cs i -> no_setnx cs j -> i <> j -> (n <= m <= N)%nat -> works_on f i key n -> works_on f j key m -> updates_at f i key n \/ updates_at f j key m ->
  exists p q mi mj, (n <= p < q)%nat /\ (q < m)%nat /\ gives i (lockpos key) mi (f p) (f (S p)) /\ takes j (lockpos key) mj (f q) (f (S q)) /\ (mi = MW \/ mj = MW).
Proof.
  intros Hi Hj Hij Hnm Wi Wj Hu. destruct (ghost N (le_n N)) as (h & HG & HK).
  assert (Xh : forall i n, works_on f i key n -> (n <= N)%nat -> exists x, h n !! i = Some x).
  { intros i' n' (n0 & t0 & Hle & Ht0 & _) Hn'. destruct (get_hi _ i' (f n0) (h n0) t0 (HG n0 ltac:(lia)) Ht0) as [x0 Hx0]. clear Ht0.
    assert (X : forall k, (n0 + k <= n')%nat -> is_Some (h (n0 + k)%nat !! i')).
    { induction k as [|k IH]; intros Hk; [rewrite Nat.add_0_r; eauto|]. destruct IH as [y Hy]; [lia|]. destruct (HK (n0 + k)%nat i' y ltac:(lia) Hy) as (y' & Hy' & _). rewrite Nat.add_succ_r. eauto. }
    destruct (X (n' - n0)%nat ltac:(lia)) as [y Hy]. exists y. rewrite <- Hy. f_equal. f_equal. lia. }
  destruct (Xh i n Wi ltac:(lia)) as [xi Hxi]. destruct (Xh j m Wj ltac:(lia)) as [xj Hxj].
  destruct (works_locks i key n h xi ltac:(lia) Hi HG HK Wi Hxi) as [mi Li]. destruct (works_locks j key m h xj ltac:(lia) Hj HG HK Wj Hxj) as [mj Lj].
  assert (Hm : mi = MW \/ mj = MW).
  { destruct Hu as [(t & Ht & Hw)|(t & Ht & Hw)].
    - left. destruct (write_locks T _ i (f n) (h n) t xi key (HG n ltac:(lia)) Ht Hxi Hw) as (l & E & _). destruct Li as (l' & E' & _). congruence.
    - right. destruct (write_locks T _ j (f m) (h m) t xj key (HG m ltac:(lia)) Ht Hxj Hw) as (l & E & _). destruct Lj as (l' & E' & _). congruence. }
  set (l := lockpos key).
  set (A := fun k => exists x, h k !! i = Some x /\ held mi l x = 1%nat). set (B := fun k => exists x, h k !! j = Some x /\ held mj l x = 1%nat).
  assert (D : forall i m k, Decision (exists x, h k !! i = Some x /\ held m l x = 1%nat)).
  { intros i' m' k. destruct (h k !! i') as [x|] eqn:E; [|right; intros (x & Hx & _); congruence]. destruct (decide (held m' l x = 1%nat)) as [H|H]; [left; eauto|right; intros (y & Hy & H'); congruence]. }
  destruct (handover A B n m) as (p & q & Hpq & Hqm & Ap & Ap' & Bq & Bq'); try (intros k; apply D); try lia.
  - exists xi. split; auto. apply locks_held. auto.
  - exists xj. split; auto. apply locks_held. auto.
  - intros k Hk (x & Hx & H1) (y & Hy & H2). destruct (HG k ltac:(lia)) as [G _]. destruct Hm as [->| ->].
    + exact (exclusive _ _ _ _ i j x y mj l G Hij Hx Hy H1 H2).
    + exact (exclusive _ _ _ _ j i y x mi l G (not_eq_sym Hij) Hy Hx H2 H1).
  - destruct Ap as (x & Hx & H1). destruct (HK p i x ltac:(lia) Hx) as (x' & Hx' & K).
    assert (H1' : held mi l x' = 0%nat). { destruct (held_cases mi l x') as [E|E]; auto. destruct Ap'. exists x'. auto. }
    destruct K as [->|(Mv & t & p0 & m0 & k0 & Ht & Ht' & [[E Hl]|[E Hl]])]; [congruence|destruct (held_no_down _ _ _ _ _ _ Hl H1 H1')|].
    destruct (held_down _ _ _ _ _ _ Hl H1 H1') as [-> ->].
    destruct Bq' as (y' & Hy' & H2'). 
    assert (exists y, h q !! j = Some y) as [y Hy].
    { destruct (HG q ltac:(lia)) as [G _]. destruct (HG (S q) ltac:(lia)) as [G' _]. assert (E1 : is_Some (ths (f q) !! j)).
      { apply lookup_lt_is_Some. rewrite <- (same_length _ _ (FX q ltac:(lia))), <- (Forall2_length _ _ _ (g_wf _ _ _ _ G')). eapply lookup_lt_Some; eauto. }
      destruct E1 as [t1 Ht1]. exact (get_hi _ j (f q) (h q) t1 (HG q ltac:(lia)) Ht1). }
    destruct (HK q j y ltac:(lia) Hy) as (y2 & Hy2 & K). assert (y2 = y') as -> by congruence.
    assert (H2 : held mj l y = 0%nat). { destruct (held_cases mj l y) as [E'|E']; auto. destruct Bq. exists y. auto. }
    destruct K as [->|(Mv2 & t2 & p2 & m2 & k2 & Ht2 & Ht2' & [[E2 Hl2]|[E2 Hl2]])]; [congruence| |destruct (held_no_up _ _ _ _ _ _ Hl2 H2 H2')].
    destruct (held_up _ _ _ _ _ _ Hl2 H2 H2') as [-> ->].
    assert (p <> q) by (intros ->; exact (one_mover _ _ i j (FX q ltac:(lia)) Hij Mv Mv2)).
    exists p, q, mi, mj. split; [lia|]. split; [lia|]. split; [|split; [|auto]].
    + exact (rel_gives _ _ _ _ _ _ _ (FX p ltac:(lia)) Ht E Mv).
    + exact (acq_takes _ _ _ _ _ _ _ (FX q ltac:(lia)) Ht2 E2 Ht2' Mv2).
Qed.
End Values.

Section Tables.
Context {P : Setup} (T : Z -> Prop).
Implicit Types (t u : sthread (list rdata)) (s : sconf (list rdata)).
Lemma inseg_iff m g t : inseg m g t = 1%nat <-> sspot t <> None /\ needs (scode t) = Some (g, m).
Proof.
  unfold inseg, at_seg. destruct (sspot t) as [o|]; [|split; [discriminate|intros [? _]; congruence]]. destruct (needs (scode t)) as [[g' m']|]; [|split; [discriminate|intros [_ ?]; discriminate]].
  case_decide as E; split; intros H; try discriminate; try (destruct E as [-> ->]); try (split; [discriminate|reflexivity]); auto. destruct H as [_ H]. injection H as -> ->. tauto.
Qed.
Lemma mover s s' : mstep T s s' -> exists i t t', sths s !! i = Some t /\ sths s' = <[i := t']> (sths s) /\
  ((sspot t <> None /\ sspot t' <> None /\ scode t' = scode t) \/ (sspot t = None /\ sspot t' = None) \/ (sspot t <> None /\ sspot t' = None) \/ (sspot t = None /\ sspot t' <> None)).
Proof.
  intros H. destruct H; cbn; match goal with H : _ !! ?i = Some ?t |- context [<[?i := ?t']> _] => exists i, t, t' end; (split; [assumption|]); (split; [reflexivity|]); cbn; try solve [auto].
  all: try solve [left; repeat split; discriminate]. all: right; try solve [left; auto]; right; solve [left; split; [discriminate|auto]|right; split; [auto|discriminate]].
Qed.
Lemma out_leaves s s' i t t' g m : mstep T s s' -> sths s !! i = Some t -> sths s' !! i = Some t' -> sspot t <> None -> sspot t' = None -> needs (scode t) = Some (g, m) -> leaves i g m s s'.
Proof.
  intros H Ht Ht' H1 H2 Hn. split; [rewrite Ht, Ht'; intros [= ->]; contradiction|]. pose proof (lookup_lt_Some _ _ _ Ht) as Hl.
  destruct H; cbn in *; match goal with H : _ !! ?j = Some _ |- _ => lazymatch H with Ht => fail | Ht' => fail | _ => destruct (decide (j = i)) as [->|Hne]; [|rewrite list_lookup_insert_ne in Ht' by auto; congruence];
    rewrite Ht in H; injection H as -> end end; rewrite list_lookup_insert in Ht' by auto; injection Ht' as <-; cbn in *; try congruence;
    match goal with H : needs _ = Some (?g', _), E : _ ?g' = mkRw _ _ _ |- _ => rewrite H in Hn; injection Hn as <- <-; unfold fput, released; rewrite decide_True by auto; rewrite E; auto end.
Qed.
Lemma in_enters s s' i t t' g m : mstep T s s' -> sths s !! i = Some t -> sths s' !! i = Some t' -> sspot t = None -> sspot t' <> None -> needs (scode t') = Some (g, m) -> enters i g m s s'.
Proof.
  intros H Ht Ht' H1 H2 Hn. split; [rewrite Ht, Ht'; intros [= ->]; contradiction|]. pose proof (lookup_lt_Some _ _ _ Ht) as Hl.
  destruct H; cbn in *; match goal with H : _ !! ?j = Some _ |- _ => lazymatch H with Ht => fail | Ht' => fail | _ => destruct (decide (j = i)) as [->|Hne]; [|rewrite list_lookup_insert_ne in Ht' by auto; congruence];
    rewrite Ht in H; injection H as -> end end; rewrite list_lookup_insert in Ht' by auto; injection Ht' as <-; cbn in *; try congruence;
    match goal with H : needs _ = Some (?g', _), E : _ ?g' = mkRw _ _ _ |- _ => rewrite H in Hn; injection Hn as <- <-; unfold fput, acquired; rewrite decide_True by auto; rewrite E; auto end.
Qed.
Lemma step_leaves s s' i g m t : mstep T s s' -> sths s !! i = Some t -> inseg m g t = 1%nat -> (forall t', sths s' !! i = Some t' -> inseg m g t' <> 1%nat) -> leaves i g m s s' /\ sths s' !! i <> sths s !! i.
Proof.
  intros H Ht H1 H2. destruct (mover _ _ H) as (j & v & v' & Hj & E & Hc). destruct (decide (j = i)) as [->|Hn].
  - assert (v = t) as -> by congruence. assert (Hv' : sths s' !! i = Some v') by (rewrite E; apply list_lookup_insert; eapply lookup_lt_Some; eauto).
    pose proof H1 as H1'. apply inseg_iff in H1 as [H1 H1n]. specialize (H2 _ Hv'). rewrite inseg_iff in H2.
    destruct Hc as [(_ & ? & Ec)|[(? & _)|[(_ & Hs)|(? & _)]]]; try congruence; [rewrite Ec in H2; tauto|].
    split; [exact (out_leaves _ _ _ _ _ _ _ H Ht Hv' H1 Hs H1n)|]. rewrite Hv', Ht. intros [= ->]. congruence.
  - exfalso. apply (H2 t); auto. rewrite E, list_lookup_insert_ne by auto. auto.
Qed.
Lemma step_enters s s' i g m t t' : mstep T s s' -> sths s !! i = Some t -> inseg m g t <> 1%nat -> sths s' !! i = Some t' -> inseg m g t' = 1%nat -> enters i g m s s' /\ sths s' !! i <> sths s !! i.
Proof.
  intros H Ht H1 Ht' H2. destruct (mover _ _ H) as (j & v & v' & Hj & E & Hc). destruct (decide (j = i)) as [->|Hn].
  - assert (v = t) as -> by congruence. assert (v' = t') as -> by (rewrite E, list_lookup_insert in Ht' by (eapply lookup_lt_Some; eauto); congruence).
    apply inseg_iff in H2 as [H2 H2n]. rewrite inseg_iff in H1.
    destruct Hc as [(? & ? & Ec)|[(_ & ?)|[(_ & ?)|(Hs & _)]]]; try congruence; [rewrite <- Ec in H1; tauto|].
    split; [exact (in_enters _ _ _ _ _ _ _ H Ht Ht' Hs H2 H2n)|]. rewrite Ht', Ht. intros [= ->]. congruence.
  - exfalso. rewrite E, list_lookup_insert_ne in Ht' by auto. congruence.
Qed.
Context (D : tables) (d : db) (cs : list (list command)) (f : nat -> sconf (list rdata)) (N : nat).
Hypothesis (FD : tables_of D d) (F0 : f 0%nat = sstart D (map client cs)) (FX : sexecution T f N).
Lemma srun n : (n <= N)%nat -> rtc (mstep T) (sstart D (map client cs)) (f n).
Proof. induction n as [|n IH]; intros Hn; [rewrite F0; constructor|]. eapply rtc_r; [apply IH; lia|apply FX; lia]. Qed.
Lemma races_tables i j g n m t u : i <> j -> (n <= m <= N)%nat -> sths (f n) !! i = Some t -> in_segment g t -> sths (f m) !! j = Some u -> in_segment g u -> ~ (only_reads t /\ only_reads u) ->
  exists p q mi mj, (n <= p < q)%nat /\ (q < m)%nat /\ leaves i g mi (f p) (f (S p)) /\ enters j g mj (f q) (f (S q)) /\ (mi = MW \/ mj = MW).
Proof.
  intros Hij Hnm Ht [Hti Uti] Hu [Huj Uuj] Hr. destruct (uses_needs _ _ Uti) as (mi & Hmi & Ri). destruct (uses_needs _ _ Uuj) as (mj & Hmj & Rj).
  assert (Hm : mi = MW \/ mj = MW). { destruct mi; auto. destruct mj; auto. destruct Hr. split; [apply Ri|apply Rj]; auto. }
  set (A := fun k => exists x, sths (f k) !! i = Some x /\ inseg mi g x = 1%nat). set (B := fun k => exists x, sths (f k) !! j = Some x /\ inseg mj g x = 1%nat).
  assert (Dc : forall i m k, Decision (exists x, sths (f k) !! i = Some x /\ inseg m g x = 1%nat)).
  { intros i' m' k. destruct (sths (f k) !! i') as [x|] eqn:E; [|right; intros (x & Hx & _); congruence]. destruct (decide (inseg m' g x = 1%nat)) as [H|H]; [left; eauto|right; intros (y & Hy & H'); congruence]. }
  destruct (handover A B n m) as (p & q & Hpq & Hqm & Ap & Ap' & Bq & Bq'); try (intros k; apply Dc); try lia.
  - exists t. split; auto. apply inseg_iff. auto.
  - exists u. split; auto. apply inseg_iff. auto.
  - intros k Hk (x & Hx & H1) (y & Hy & H2). destruct (shard_inv T D d cs (f k) FD (srun k ltac:(lia))) as (c & hs & _ & I). pose proof (v_sli _ _ _ I) as S0. destruct Hm as [->| ->].
    + exact (sli_excl _ _ i j x y g mj S0 Hij Hx Hy H1 H2).
    + exact (sli_excl _ _ j i y x g mi S0 (not_eq_sym Hij) Hy Hx H2 H1).
  - destruct Ap as (x & Hx & H1). destruct Bq' as (y' & Hy' & H2').
    destruct (step_leaves (f p) (f (S p)) i g mi x (FX p ltac:(lia)) Hx H1) as [HL Mv]. { intros x' Hx' H'. apply Ap'. exists x'. auto. }
    assert (exists y, sths (f q) !! j = Some y) as [y Hy].
    { apply lookup_lt_is_Some. destruct (mover _ _ (FX q ltac:(lia))) as (j0 & v & v' & _ & E & _). apply lookup_lt_Some in Hy'. rewrite E, insert_length in Hy'. auto. }
    destruct (step_enters (f q) (f (S q)) j g mj y y' (FX q ltac:(lia)) Hy) as [HE Mv2]; auto. { intros H'. apply Bq. exists y. auto. }
    assert (p <> q). { intros ->. destruct (mover _ _ (FX q ltac:(lia))) as (j0 & v & v' & _ & E & _). rewrite E in Mv, Mv2.
      destruct (decide (j0 = i)) as [->|]; [rewrite (list_lookup_insert_ne _ i j) in Mv2 by auto; auto|rewrite list_lookup_insert_ne in Mv by auto; auto]. }
    exists p, q, mi, mj. split; [lia|]. split; [lia|]. auto.
Qed.
End Tables.
