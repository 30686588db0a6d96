(** Proofs about byte slices. *)
From Verif Require Export SpecSlice.

Definition inside (m : gmap nat (list ascii)) (s : bslice) : Prop := exists a : list ascii, m !! arr s = Some a /\ (off s + len s <= length a)%nat.
Lemma shows_length m s : inside m s -> length (shows m s) = len s.
Proof. intros (a & E & H). unfold shows. rewrite E, take_length, drop_length. lia. Qed.
Lemma shows_same m m' s (a a' : list ascii) : m !! arr s = Some a -> m' !! arr s = Some a' -> take (off s + len s) a' = take (off s + len s) a -> shows m' s = shows m s.
Proof.
  intros E E' H. unfold shows. rewrite E, E'. rewrite <- !skipn_firstn_comm || idtac.
  assert (G : forall x : bytes, take (len s) (drop (off s) x) = drop (off s) (take (off s + len s) x)).
  { intros x. rewrite skipn_firstn_comm. f_equal. lia. }
  rewrite !G, H. auto.
Qed.
Lemma append_facts m s v m' s' : inside m s -> appends_to m s v m' s' ->
  inside m' s' /\ shows m' s' = shows m s ++ v /\ len s' = (len s + length v)%nat /\
  (arr s' = arr s /\ off s' = off s \/ m !! arr s' = None) /\
  (forall b (a : list ascii), m !! b = Some a -> b <> arr s -> m' !! b = Some a) /\
  (forall a : list ascii, m !! arr s = Some a -> exists a', m' !! arr s = Some a' /\ length a' = length a /\ take (off s + len s) a' = take (off s + len s) a).
Proof.
  intros (a0 & E0 & H0) H. inversion H; subst.
  - rewrite E0 in H1. injection H1 as <-. assert (L : length (write_at a0 (off s + len s) v) = length a0).
    { unfold write_at. rewrite !app_length, take_length, drop_length. lia. }
    split; [eexists; cbn; rewrite lookup_insert; split; [reflexivity|]; lia|].
    split.
    { unfold shows. cbn. rewrite lookup_insert, E0. unfold write_at. rewrite drop_app_le by (rewrite take_length; lia).
      rewrite <- (skipn_firstn_comm) || idtac. rewrite take_app_ge by (rewrite drop_length, take_length; lia).
      f_equal; [rewrite skipn_firstn_comm; f_equal; lia|]. rewrite drop_length, take_length. apply take_app_alt. lia. }
    split; auto. split; auto. split; [intros b a Hb Hne; cbn; rewrite lookup_insert_ne; auto|].
    intros a Ha. rewrite E0 in Ha. injection Ha as <-. rewrite lookup_insert. eexists. split; [reflexivity|]. split; auto.
    unfold write_at. rewrite take_app_le by (rewrite take_length; lia). rewrite take_take. f_equal. lia.
  - rewrite E0 in H1. injection H1 as <-. assert (Ls : length (shows m s) = len s) by (apply shows_length; exists a0; auto).
    split; [eexists; cbn; rewrite lookup_insert; split; [reflexivity|]; rewrite !app_length; lia|].
    split.
    { unfold shows at 1. cbn. rewrite lookup_insert, app_assoc. apply take_app_alt. rewrite app_length. lia. }
    split; auto. split; auto. split; [intros b0 a Hb Hne; rewrite lookup_insert_ne; auto; congruence|].
    intros a Ha. rewrite lookup_insert_ne by congruence. eauto.
Qed.

(** Every key has its own array. *)
Definition owned (x : slices) : Prop :=
  (forall k s, keyed x !! k = Some s -> inside (mem x) s) /\
  (forall k1 k2 s1 s2, keyed x !! k1 = Some s1 -> keyed x !! k2 = Some s2 -> k1 <> k2 -> arr s1 <> arr s2).
(** The slice [r], handed out, is not beyond what the key that owns its array shows. *)
Definition covered (x : slices) (r : bslice) : Prop :=
  inside (mem x) r /\ forall k s, keyed x !! k = Some s -> arr s = arr r -> (off r + len r <= off s + len s)%nat.

(** Growing the slice of a key, from a part of it. *)
Lemma put_new x k b v (spare : list ascii) : owned x -> mem x !! b = None ->
  let y := mkSl (<[b := v ++ spare]> (mem x)) (<[k := mkSlice b 0 (length v)]> (keyed x)) in
  owned y /\ contents y = <[k := v]> (contents x) /\ (forall r, covered x r -> covered y r /\ shows (mem y) r = shows (mem x) r) /\
  covered y (mkSlice b 0 (length v)) /\ shows (mem y) (mkSlice b 0 (length v)) = v.
Proof.
  intros [O1 O2] Hb y.
  assert (Hs : shows (mem y) (mkSlice b 0 (length v)) = v) by (unfold shows; cbn; rewrite lookup_insert; apply take_app_alt; auto).
  assert (Hi : inside (mem y) (mkSlice b 0 (length v))) by (eexists; cbn; rewrite lookup_insert; split; [reflexivity|]; rewrite app_length; lia).
  assert (Old : forall s, inside (mem x) s -> inside (mem y) s /\ shows (mem y) s = shows (mem x) s /\ arr s <> b).
  { intros s (a & E & H). assert (arr s <> b) by congruence. assert (E' : mem y !! arr s = Some a) by (cbn; rewrite lookup_insert_ne; auto).
    split; [exists a; auto|]. split; auto. unfold shows. rewrite E, E'. auto. }
  split; [split|split; [|split; [|split]]]; auto.
  - intros k0 s. cbn. rewrite lookup_insert_Some. intros [[<- <-]|[_ H]]; auto. apply Old; eauto.
  - intros k1 k2 s1 s2. cbn. rewrite !lookup_insert_Some. intros [[<- <-]|[N1 H1]] [[<- <-]|[N2 H2]] Hne; try congruence; cbn; eauto.
    + intros E. symmetry in E. revert E. apply Old; eauto.
    + apply Old; eauto.
  - apply map_eq. intros k0. unfold contents. cbn [keyed y]. rewrite fmap_insert, Hs. destruct (decide (k0 = k)) as [->|N]; [rewrite !lookup_insert; auto|].
    rewrite !lookup_insert_ne, !lookup_fmap by auto. destruct (keyed x !! k0) as [s|] eqn:E; auto. cbn. f_equal. apply Old; eauto.
  - intros r [H1 H2]. destruct (Old r H1) as (A & B & C). split; auto. split; auto. intros k0 s. cbn. rewrite lookup_insert_Some.
    intros [[<- <-]|[_ H]]; [cbn; congruence|eauto].
  - split; auto. intros k0 s. cbn. rewrite lookup_insert_Some. intros [[<- <-]|[_ H]]; [cbn; lia|]. intros E. destruct (Old s) as (_ & _ & C); eauto. congruence.
Qed.
Lemma put_grown x k s o v m' s' : owned x -> keyed x !! k = Some s -> (o <= len s)%nat -> appends_to (mem x) (mkSlice (arr s) (off s) o) v m' s' ->
  let y := mkSl m' (<[k := s']> (keyed x)) in
  owned y /\ contents y = <[k := take o (shows (mem x) s) ++ v]> (contents x) /\ len s' = (o + length v)%nat /\
  (o = len s -> forall r, covered x r -> covered y r /\ shows (mem y) r = shows (mem x) r).
Proof.
  intros [O1 O2] Hk Ho Ha y. pose proof (O1 _ _ Hk) as (a & Ea & La).
  assert (Hin : inside (mem x) (mkSlice (arr s) (off s) o)) by (exists a; cbn; split; auto; lia).
  destruct (append_facts _ _ _ _ _ Hin Ha) as (F1 & F2 & F3 & F4 & F5 & F6). cbn [arr off len] in *.
  assert (Fs : shows (mem x) (mkSlice (arr s) (off s) o) = take o (shows (mem x) s)).
  { unfold shows. cbn. rewrite Ea, take_take. f_equal. lia. }
  assert (Old : forall t, inside (mem x) t -> arr t <> arr s -> inside (mem y) t /\ shows (mem y) t = shows (mem x) t).
  { intros t (at_ & E & H) N. assert (E' : mem y !! arr t = Some at_) by (cbn; auto). split; [exists at_; auto|]. unfold shows. rewrite E, E'. auto. }
  assert (N4 : forall k0 t, keyed x !! k0 = Some t -> k0 <> k -> arr t <> arr s').
  { intros k0 t Ht N. destruct F4 as [[-> _]|F4]; [eauto|]. destruct (O1 _ _ Ht) as (at_ & E & _). congruence. }
  split; [split|split; [|split; [auto|]]].
  - intros k0 t. cbn. rewrite lookup_insert_Some. intros [[<- <-]|[N H]]; auto. apply Old; eauto.
  - intros k1 k2 s1 s2. cbn. rewrite !lookup_insert_Some. intros [[<- <-]|[N1 H1]] [[<- <-]|[N2 H2]] Hne; try congruence; eauto.
    intros E. symmetry in E. revert E. eapply N4; eauto.
  - apply map_eq. intros k0. unfold contents. cbn [keyed y mem]. rewrite fmap_insert, F2, Fs. destruct (decide (k0 = k)) as [->|N]; [rewrite !lookup_insert; auto|].
    rewrite !lookup_insert_ne, !lookup_fmap by auto. destruct (keyed x !! k0) as [t|] eqn:E; auto. cbn. f_equal. apply Old; eauto.
  - intros -> r [H1 H2]. destruct (decide (arr r = arr s)) as [E|N].
    + specialize (H2 _ _ Hk (eq_sym E)). destruct (F6 a Ea) as (a' & Ea' & La' & Ta').
      destruct H1 as (a1 & E1 & L1). rewrite E in E1. assert (a1 = a) as -> by congruence.
      assert (Hr : inside (mem y) r) by (exists a'; cbn; rewrite E, La'; auto).
      split; [split; auto|].
      * intros k0 t. cbn. rewrite lookup_insert_Some. intros [[<- <-]|[Nk H]] Et.
        -- destruct F4 as [[_ ->]|F4]; [lia|congruence].
        -- destruct (O2 k0 k t s); auto. congruence.
      * apply (shows_same _ _ _ a a'); cbn; rewrite ?E; auto.
        assert (Q : forall z : bytes, take (off r + len r) z = take (off r + len r) (take (off s + len s) z)) by (intros z; rewrite take_take; f_equal; lia).
        rewrite (Q a'), (Q a), Ta'. auto.
    + destruct (Old r H1 N). split; auto. split; auto. intros k0 t. cbn. rewrite lookup_insert_Some. intros [[<- <-]|[Nk Hx]] Et; [|eauto].
      destruct F4 as [[F4 _]|F4]; [congruence|]. destruct H1 as (a1 & E1 & _). congruence.
Qed.
Lemma contents_look x k : contents x !! k = shows (mem x) <$> keyed x !! k.
Proof. apply lookup_fmap. Qed.
Lemma sstep_facts x o r y : owned x -> sstep x o r y ->
  owned y /\ contents y = vapply o (contents x) /\ shows (mem y) <$> r = vreply o (contents x) /\
  (forall t, r = Some t -> covered y t) /\
  (~ writes_inside o (contents x) -> forall t, covered x t -> covered y t /\ shows (mem y) t = shows (mem x) t).
Proof.
  intros O St. inversion St; subst; cbn [vapply vreply].
  - destruct (put_new (mkSl m ks) k b v spare O H) as (P1 & P2 & P3 & P4 & P5). cbn [mem keyed] in *. split; auto. split; auto. split; auto. split; [discriminate|auto].
  - destruct (put_new (mkSl m ks) k b v spare O H) as (P1 & P2 & P3 & P4 & P5). cbn [mem keyed] in *. split; auto. split; auto. split; [cbn; f_equal; auto|]. split; [intros t [= <-]; auto|auto].
  - split; auto. split; auto. split; [rewrite contents_look; auto|]. split; [|auto]. intros t Ht. destruct O as [O1 O2]. split; [eauto|].
    intros k0 s H E. destruct (decide (k0 = k)) as [->|N]; [cbn in *; rewrite Ht in H; injection H as <-; lia|]. destruct (O2 k0 k s t); auto.
  - split; auto. split; auto. split; [|split; [|auto]].
    + rewrite contents_look. cbn [keyed mem]. rewrite H. cbn. f_equal. unfold shows. cbn. destruct (m !! arr s); [|rewrite drop_nil, take_nil; auto].
      rewrite <- drop_drop. rewrite <- (Nat.add_comm i), skipn_firstn_comm || idtac. 
      rewrite skipn_firstn_comm, take_take. f_equal. lia.
    + intros t [= <-]. destruct O as [O1 O2]. destruct (O1 _ _ H) as (a & Ea & La). split; [exists a; cbn; split; auto; lia|].
      intros k0 t H1 E. cbn in *. destruct (decide (k0 = k)) as [->|N]; [rewrite H in H1; injection H1 as <-; lia|]. destruct (O2 k0 k t s); auto.
  - destruct (put_grown (mkSl m ks) k s o0 v m' s' O H H0 H1) as (P1 & P2 & P3 & P4). cbn [mem keyed] in *. split; auto.
    assert (L : length (shows m s) = len s) by (apply shows_length; destruct O as [O1 _]; exact (O1 _ _ H)).
    split; [rewrite P2, contents_look; cbn [mem keyed]; rewrite H; cbn; unfold overwrite; rewrite take_app_le by lia; auto|].
    split; auto. split; [discriminate|]. intros N t Ht. apply P4; auto. destruct (decide (o0 = len s)); auto. destruct N. cbn [writes_inside].
    exists (shows m s). rewrite contents_look. cbn. rewrite H. split; auto. lia.
  - assert (L : length (shows m s) = len s) by (apply shows_length; destruct O as [O1 _]; exact (O1 _ _ H)).
    assert (H1' : appends_to m (mkSlice (arr s) (off s) (len s)) (replicate (o0 - len s) (ascii_of_N 0)) m1 s1) by (destruct s; auto).
    destruct (put_grown (mkSl m ks) k s (len s) _ m1 s1 O H ltac:(lia) H1') as (P1 & P2 & P3 & P4). cbn [mem keyed] in *.
    assert (H2' : appends_to m1 (mkSlice (arr s1) (off s1) (len s1)) v m' s') by (destruct s1; auto).
    destruct (put_grown (mkSl m1 (<[k:=s1]> ks)) k s1 (len s1) v m' s' P1 ltac:(cbn; apply lookup_insert) ltac:(lia) H2') as (Q1 & Q2 & Q3 & Q4). cbn [mem keyed] in *.
    rewrite insert_insert in *. split; auto. split.
    { rewrite Q2, P2, insert_insert, contents_look. cbn [mem keyed]. rewrite H. cbn [fmap option_fmap option_map default]. f_equal.
      assert (E : contents (mkSl m1 (<[k:=s1]> ks)) !! k = Some (take (len s) (shows m s) ++ replicate (o0 - len s) (ascii_of_N 0))) by (rewrite P2; apply lookup_insert).
      rewrite contents_look in E. cbn in E. rewrite lookup_insert in E. cbn in E. injection E as ->. unfold overwrite. f_equal.
      cbn [default from_option id]. unfold id, from_option. rewrite L. rewrite (take_ge (shows m s)) by lia. rewrite !take_ge; auto; rewrite app_length, replicate_length; rewrite ?P3, ?replicate_length; lia. }
    split; auto. split; [discriminate|]. intros _ t Ht. destruct (P4 eq_refl t Ht) as [C1 E1]. destruct (Q4 eq_refl t C1) as [C2 E2]. split; auto. congruence.
  - destruct (put_new (mkSl m ks) k b [] [] O H0) as (N1 & N2 & N3 & _ & _). cbn [mem keyed app] in *.
    destruct (put_grown _ k (mkSlice b 0 0) 0 _ m1 s1 N1 ltac:(cbn; apply lookup_insert) ltac:(cbn; lia) H1) as (P1 & P2 & P3 & P4). cbn [mem keyed len] in *.
    rewrite insert_insert in *.
    assert (H2' : appends_to m1 (mkSlice (arr s1) (off s1) (len s1)) v m' s') by (destruct s1; auto).
    destruct (put_grown (mkSl m1 (<[k:=s1]> ks)) k s1 (len s1) v m' s' P1 ltac:(cbn; apply lookup_insert) ltac:(lia) H2') as (Q1 & Q2 & Q3 & Q4). cbn [mem keyed] in *.
    rewrite insert_insert in *. split; auto. split.
    { rewrite Q2, P2, N2, !insert_insert, contents_look. cbn [mem keyed]. rewrite H. cbn [fmap option_fmap option_map default]. f_equal.
      assert (E : contents (mkSl m1 (<[k:=s1]> ks)) !! k = Some (replicate o0 (ascii_of_N 0))) by (rewrite P2, N2, insert_insert; apply lookup_insert).
      rewrite contents_look in E. cbn in E. rewrite lookup_insert in E. cbn in E. injection E as ->. unfold overwrite. f_equal.
      cbn. rewrite Nat.sub_0_r. rewrite !take_ge; auto; rewrite ?P3, ?replicate_length; lia. }
    split; auto. split; [discriminate|]. intros _ t Ht. destruct (N3 t Ht) as [C0 E0]. destruct (P4 eq_refl t C0) as [C1 E1]. destruct (Q4 eq_refl t C1) as [C2 E2]. split; auto. congruence.
  - assert (L : length (shows m s) = len s) by (apply shows_length; destruct O as [O1 _]; exact (O1 _ _ H)).
    assert (H1' : appends_to m (mkSlice (arr s) (off s) (len s)) v m' s') by (destruct s; auto).
    destruct (put_grown (mkSl m ks) k s (len s) _ m' s' O H ltac:(lia) H1') as (P1 & P2 & P3 & P4). cbn [mem keyed] in *. split; auto.
    split; [rewrite P2, contents_look; cbn [mem keyed]; rewrite H; cbn; rewrite take_ge by lia; auto|]. split; auto. split; [discriminate|auto].
  - destruct (put_new (mkSl m ks) k b v spare O H0) as (P1 & P2 & P3 & P4 & P5). cbn [mem keyed] in *. split; auto.
    split; [rewrite P2, contents_look; cbn [mem keyed]; rewrite H; auto|]. split; auto. split; [discriminate|auto].
  - destruct O as [O1 O2]. split; [split|].
    + intros k0 s. cbn. rewrite lookup_delete_Some. intros [_ H]. eauto.
    + intros k1 k2 s1 s2. cbn. rewrite !lookup_delete_Some. intros [_ H1] [_ H2]. eauto.
    + split; [unfold contents; cbn; apply fmap_delete|]. split; auto. split; [discriminate|]. intros _ t [C1 C2]. split; auto. split; auto. intros k0 s. cbn. rewrite lookup_delete_Some. intros [_ H]. eauto.
  - destruct O as [O1 O2]. cbn in O1, O2. split; [split|].
    + intros k0 t. cbn. rewrite lookup_insert_Some, lookup_delete_Some. intros [[<- <-]|[_ [_ H1]]]; eauto.
    + intros k1 k2 s1 s2. cbn. rewrite !lookup_insert_Some, !lookup_delete_Some. intros [[<- <-]|[N1 [M1 H1]]] [[<- <-]|[N2 [M2 H2]]] Hne; try congruence; eauto.
    + split; [rewrite contents_look; cbn; rewrite H; cbn; unfold contents; cbn; rewrite fmap_insert, fmap_delete; auto|]. split; auto. split; [discriminate|].
      intros _ t [C1 C2]. split; auto. split; auto. intros k0 u. cbn in *. rewrite lookup_insert_Some, lookup_delete_Some. intros [[<- <-]|[_ [_ H1]]]; eauto.
Qed.
Lemma owned_none : owned no_slices.
Proof. split; cbn; intros *; rewrite lookup_empty; discriminate. Qed.
Lemma run_facts x l y : slice_run x l y -> owned x -> owned y /\ contents y = vrun (map fst l) (contents x).
Proof.
  induction 1 as [x|x o r y l z St _ IH]; auto. intros O. destruct (sstep_facts _ _ _ _ O St) as (O' & E & _). destruct (IH O') as [O2 E2]. split; auto.
  cbn. rewrite E2, E. auto.
Qed.
Theorem slice_contents l x : slice_run no_slices l x -> contents x = vrun (map fst l) ∅.
Proof. intros H. destruct (run_facts _ _ _ H owned_none) as [_ ->]. unfold contents. cbn. rewrite fmap_empty. auto. Qed.
Lemma run_split l1 : forall x l2 z, slice_run x (l1 ++ l2) z -> exists y, slice_run x l1 y /\ slice_run y l2 z.
Proof.
  induction l1 as [|[o r] l1 IH]; intros x l2 z; cbn; [eauto using SR_nil|]. intros H; inversion H as [|x0 o0 r0 y0 l0 z0 Hst Hrun]; subst. destruct (IH _ _ _ Hrun) as (y' & A & B). exists y'. split; auto. econstructor; eauto.
Qed.
Lemma run_covers x l y t : slice_run x l y -> owned x -> covered x t -> (forall la p lb, l = la ++ p :: lb -> ~ writes_inside p.1 (vrun (map fst la) (contents x))) ->
  covered y t /\ shows (mem y) t = shows (mem x) t.
Proof.
  induction 1 as [x|x o r y l z St _ IH]; auto. intros O Ct Hw. destruct (sstep_facts _ _ _ _ O St) as (O' & E & _ & _ & P).
  destruct (P (Hw [] (o, r) l eq_refl) t Ct) as [C1 E1]. destruct (IH O' C1) as [C2 E2]; [|split; auto; congruence].
  intros la p lb ->. specialize (Hw ((o, r) :: la) p lb eq_refl). cbn in Hw. rewrite E. auto.
Qed.
Theorem slice_reply l1 o r l2 z : slice_run no_slices (l1 ++ (o, r) :: l2) z ->
  (forall la p lb, l2 = la ++ p :: lb -> ~ writes_inside p.1 (vrun (map fst (l1 ++ (o, r) :: la)) ∅)) ->
  shows (mem z) <$> r = vreply o (vrun (map fst l1) ∅).
Proof.
  intros H Hw. apply run_split in H as (x & H1 & H2). inversion H2 as [|x0 o0 r0 y l0 z0 H5 Hrun]; subst.
  destruct (run_facts _ _ _ H1 owned_none) as [O1 _]. destruct (sstep_facts _ _ _ _ O1 H5) as (O2 & E2 & E3 & E4 & _).
  rewrite (slice_contents _ _ H1) in E2, E3. rewrite <- E3. destruct r as [t|]; auto. cbn. f_equal. eapply run_covers; eauto.
  intros la p lb ->. specialize (Hw la p lb eq_refl). rewrite map_app in Hw. cbn in Hw. unfold vrun in *. rewrite fold_left_app in Hw. cbn in Hw.
  unfold vrun. rewrite E2. exact Hw.
Qed.
(** ** Every operation can be carried out *)
Lemma append_possible m s v : inside m s -> exists m' s', appends_to m s v m' s'.
Proof.
  intros (a & E & H). destruct (decide (off s + len s + length v <= length a)%nat) as [L|L]; [eexists _, _; eapply A_in_place; eauto|].
  eexists _, _. eapply (A_new _ _ _ a (fresh (dom m)) []); [exact E|lia|]. apply not_elem_of_dom, is_fresh.
Qed.
Theorem slice_possible l x o : slice_run no_slices l x -> sensible o (contents x) -> exists r y, sstep x o r y.
Proof.
  intros R Hs. destruct (run_facts _ _ _ R owned_none) as [[O _] _]. clear R. destruct x as [m ks]. cbn [mem keyed] in O. set (b := fresh (dom m)). assert (Hb : m !! b = None) by (apply not_elem_of_dom, is_fresh).
  destruct o as [k v|k v|k|k i j|k o v|k v|k|k k']; unfold sensible in Hs.
  - eexists _, _. apply (S_store _ _ _ _ b []). auto.
  - eexists _, _. apply (S_store_reply _ _ _ _ b []). auto.
  - eexists _, _. apply S_get.
  - destruct Hs as (w & Hw & Hl). rewrite contents_look in Hw. cbn in Hw. destruct (ks !! k) as [s|] eqn:E; [|discriminate]. cbn in Hw. injection Hw as <-. rewrite (shows_length _ _ (O _ _ E)) in Hl.
    eexists _, _. eapply S_getrange; eauto.
  - destruct (ks !! k) as [s|] eqn:E.
    + pose proof (O _ _ E) as I. destruct (decide (o <= len s)%nat) as [L|L].
      * destruct (append_possible m (mkSlice (arr s) (off s) o) v) as (m' & s' & A); [destruct I as (a & Ea & La); exists a; cbn; split; auto; lia|]. eexists _, _. eapply S_setrange_in; eauto.
      * destruct (append_possible m s (replicate (o - len s) (ascii_of_N 0)) I) as (m1 & s1 & A1). destruct (append_facts _ _ _ _ _ I A1) as [I1 _].
        destruct (append_possible m1 s1 v I1) as (m' & s' & A). eexists _, _. eapply S_setrange_out; eauto. lia.
    + assert (I : inside (<[b := []]> m) (mkSlice b 0 0)) by (exists []; cbn; rewrite lookup_insert; auto).
      destruct (append_possible _ _ (replicate o (ascii_of_N 0)) I) as (m1 & s1 & A1). destruct (append_facts _ _ _ _ _ I A1) as [I1 _].
      destruct (append_possible m1 s1 v I1) as (m' & s' & A). eexists _, _. eapply S_setrange_new; eauto.
  - destruct (ks !! k) as [s|] eqn:E; [|eexists _, _; eapply (S_append_new _ _ _ _ b []); eauto]. destruct (append_possible m s v (O _ _ E)) as (m' & s' & A). eexists _, _. eapply S_append; eauto.
  - eexists _, _. apply S_del.
  - destruct Hs as [Hk Hn]. rewrite contents_look in Hk. cbn in Hk. destruct (ks !! k) as [s|] eqn:E; [|contradiction]. eexists _, _. eapply S_rename; eauto.
Qed.
