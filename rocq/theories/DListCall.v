(** Set, Clear and Trim of the linked list; every method; histories. *)
From Verif Require Export DListOps.

(** ** Single stores *)
Definition upd (s : lst) (a : nat) (f : node -> node) : lst :=
  mkLst (alter f a (cells s)) (nfree s) (hd s) (tl s) (ln s).
Lemma store_ok s a f : is_Some (cells s !! a) -> store (Some a) f s = Ok tt (upd s a f).
Proof.
  intros [n H]. unfold store, upd. rewrite H. do 2 f_equal. apply map_eq. intros c.
  destruct (decide (c = a)) as [->|]; [rewrite lookup_insert, lookup_alter, H; auto|].
  rewrite lookup_insert_ne, lookup_alter_ne by auto. auto.
Qed.
Lemma upd_valid s a f c : is_Some (cells (upd s a f) !! c) <-> is_Some (cells s !! c).
Proof.
  unfold upd; cbn. destruct (decide (c = a)) as [->|]; [rewrite lookup_alter|rewrite lookup_alter_ne by auto; tauto].
  rewrite fmap_is_Some. tauto.
Qed.
Lemma upd_other s a f c : c <> a -> cells (upd s a f) !! c = cells s !! c.
Proof. intros H. unfold upd; cbn. rewrite lookup_alter_ne; auto. Qed.
Lemma upd_next s a q c : is_Some (cells s !! a) ->
  let s' := upd s a (fun n => mkNode (nprev n) q (nval n)) in
  nxt s' c = (if decide (c = a) then q else nxt s c) /\ prv s' c = prv s c /\ vl s' c = vl s c.
Proof.
  intros [n H]. unfold upd, nxt, prv, vl; cbn. case_decide.
  - subst. rewrite lookup_alter, H. cbn. auto.
  - rewrite lookup_alter_ne by auto. auto.
Qed.
Lemma upd_prev s a q c : is_Some (cells s !! a) ->
  let s' := upd s a (fun n => mkNode q (nnext n) (nval n)) in
  nxt s' c = nxt s c /\ prv s' c = (if decide (c = a) then q else prv s c) /\ vl s' c = vl s c.
Proof.
  intros [n H]. unfold upd, nxt, prv, vl; cbn. case_decide.
  - subst. rewrite lookup_alter, H. cbn. auto.
  - rewrite lookup_alter_ne by auto. auto.
Qed.
Lemma upd_val s a v c : is_Some (cells s !! a) ->
  let s' := upd s a (fun n => mkNode (nprev n) (nnext n) v) in
  nxt s' c = nxt s c /\ prv s' c = prv s c /\ vl s' c = (if decide (c = a) then v else vl s c).
Proof.
  intros [n H]. unfold upd, nxt, prv, vl; cbn. case_decide.
  - subst. rewrite lookup_alter, H. cbn. auto.
  - rewrite lookup_alter_ne by auto. auto.
Qed.

(** ** Set *)
Lemma m_set_at s xs x v ys w : rep s (xs ++ (x, v) :: ys) ->
  let s' := upd s x (fun n => mkNode (nprev n) (nnext n) w) in
  rep s' (xs ++ (x, w) :: ys) /\ evolves s (xs ++ (x, v) :: ys) s' (xs ++ (x, w) :: ys).
Proof.
  intros Hr s'. destruct (rep_at _ _ _ _ _ Hr) as (_ & _ & _ & A4 & A5 & _).
  assert (F := fun c => upd_val s x w c A4). fold s' in F.
  pose proof (rep_nodup _ _ Hr) as ND. rewrite own_app in ND. cbn in ND.
  change (hd s :: map fst xs ++ x :: map fst ys ++ [tl s]) with ((hd s :: map fst xs) ++ x :: (map fst ys ++ [tl s])) in ND.
  rewrite <- Permutation_middle in ND. apply nd_cons in ND as [Nx _].
  assert (Eo : own s' (xs ++ (x, w) :: ys) = own s (xs ++ (x, v) :: ys)) by (rewrite !own_app; reflexivity).
  split.
  - destruct Hr as [R1 R2 R3 R4 R5 R6 R7]. constructor; try rewrite Eo; auto.
    + apply dseg_split in R1 as (S1 & S2 & S3). apply dseg_split. split; [|split].
      * eapply dseg_frame; [exact S1|intros c Hc; apply F| |].
        -- intros c Hc. apply F.
        -- intros c Hc. destruct (F c) as (_ & _ & ->). rewrite decide_False; auto. intros ->. apply Nx. els.
      * destruct (F x) as (_ & _ & ->). rewrite decide_True; auto.
      * eapply dseg_frame; [exact S3|intros c Hc; apply F| |].
        -- intros c Hc. apply F.
        -- intros c Hc. destruct (F c) as (_ & _ & ->). rewrite decide_False; auto. intros ->. apply Nx. els.
    + destruct (F (hd s)) as (_ & F2 & _). cbn [hd s' upd] in *. rewrite <- R2. exact F2.
    + destruct (F (tl s)) as (F1 & _ & _). rewrite <- R3. exact F1.
    + intros a Ha. destruct (R5 a Ha). split; auto. apply upd_valid. auto.
    + intros a Ha. unfold s'. assert (a <> x). { cbn in Ha. lia. } rewrite upd_other; auto.
    + cbn. rewrite R7. unfold zlen. rewrite !app_length. auto.
  - repeat apply conj; auto.
    + intros a Ha. left. rewrite map_app in *. exact Ha.
    + intros a Ha Hn. apply upd_other. intros ->. apply Hn. rewrite own_app. els.
Qed.
Lemma m_set_ok s xs i v fuel : rep s xs -> zlen xs < 2 ^ 62 -> min_int <= i <= max_int -> (length xs + 2 <= fuel)%nat ->
  match list_index (map snd xs) i with
  | LI_none => m_set fuel v i s = Ok false s
  | LI_at n => exists s' xs', m_set fuel v i s = Ok true s' /\ rep s' xs' /\ evolves s xs s' xs' /\ map snd xs' = <[n := v]> (map snd xs)
  | LI_crash => m_set fuel v i s = NilDeref
  end.
Proof.
  intros Hr Hz Hi Hf. pose proof (index_ok s xs i fuel Hr Hz Hi Hf) as H. unfold m_set.
  destruct (list_index (map snd xs) i) as [|n|].
  - unfold mbind. rewrite H. auto.
  - destruct H as (x & w & E & H). pose proof (take_drop_middle _ _ _ E) as Ex.
    rewrite <- Ex in Hr. destruct (rep_at _ _ _ _ _ Hr) as (_ & _ & _ & A4 & _).
    destruct (m_set_at _ _ _ _ _ v Hr) as [R V]. rewrite Ex in V. eexists _, _. split; [|split; [exact R|split; [exact V|]]].
    + unfold mbind. rewrite H. unfold set_val. rewrite store_ok by auto. reflexivity.
    + rewrite map_app. cbn. rewrite insert_take_drop.
      * rewrite firstn_map, skipn_map. auto.
      * rewrite map_length. eapply lookup_lt_Some; eauto.
  - unfold mbind. rewrite H. auto.
Qed.

(** ** Clear and Trim: keep a middle part *)
Lemma dseg_retarget s s' b b' m : forall a a', dseg s a m b -> NoDup (map fst m) ->
  nxt s' a' = Some (fst_or m b') -> prv s' b' = Some (last_or a' m) ->
  (forall c, c ∈ map fst m -> vl s' c = vl s c /\
     nxt s' c = (if decide (c = last_or a' m) then Some b' else nxt s c) /\
     prv s' c = (if decide (c = fst_or m b') then Some a' else prv s c)) ->
  dseg s' a' m b'.
Proof.
  induction m as [|[x v] r IH]; intros a a' Hd ND Hn Hp F; [cbn; auto|].
  cbn [dseg] in Hd. destruct Hd as (D1 & D2 & D3 & D4). cbn [map fst] in ND. apply nd_cons in ND as [Nx ND].
  cbn [fst_or last_or map fst] in *.
  destruct (F x) as (F1 & F2 & F3); [left|]. rewrite decide_True in F3 by auto.
  cbn [dseg]. split; auto. split; auto. split; [congruence|]. apply (IH x x); auto.
  - rewrite F2. destruct r as [|[y w] r]; [rewrite decide_True; auto|]. cbn [last_or fst_or] in *. rewrite decide_False.
    + apply (dseg_next _ _ _ _ D4).
    + intros E. apply Nx. rewrite E. apply last_or_in.
  - intros c Hc. destruct (F c) as (G1 & G2 & G3); [right; auto|]. split; auto. split; auto.
    assert (Hcx : c <> x) by (intros ->; auto). rewrite decide_False in G3 by auto. rewrite G3.
    destruct (decide (c = fst_or r b')) as [->|]; auto.
    destruct r as [|[y w] r]; [inversion Hc|]. cbn in D4 |- *. tauto.
Qed.
Definition cut (s : lst) (f l : nat) (n : Z) (s' : lst) : Prop :=
  hd s' = hd s /\ tl s' = tl s /\ nfree s' = nfree s /\ ln s' = n /\
  (forall c, nxt s' c = (if decide (c = l) then Some (tl s) else if decide (c = hd s) then Some f else nxt s c) /\
     prv s' c = (if decide (c = tl s) then Some l else if decide (c = f) then Some (hd s) else prv s c) /\
     vl s' c = vl s c /\ (is_Some (cells s' !! c) <-> is_Some (cells s !! c)) /\
     (c <> hd s -> c <> tl s -> c <> f -> c <> l -> cells s' !! c = cells s !! c)).
Lemma cut_rep s p m q s' : rep s (p ++ m ++ q) -> cut s (fst_or m (tl s)) (last_or (hd s) m) (zlen m) s' ->
  rep s' m /\ evolves s (p ++ m ++ q) s' m.
Proof.
  intros Hr (C1 & C2 & C3 & C4 & C). set (f := fst_or m (tl s)) in *. set (l := last_or (hd s) m) in *.
  pose proof Hr as Hr'. destruct (seg_parts _ _ _ Hr) as [_ S2].
  assert (Sm : dseg s (last_or (hd s) p) m (fst_or q (tl s))).
  { revert S2. generalize (last_or (hd s) p). clear. induction m as [|[x v] m IH]; intros a; cbn.
    - intros H. split; [apply (dseg_next _ _ _ _ H)|]. destruct q as [|[y w] q]; cbn in *; tauto.
    - intros (H1 & H2 & H3 & H4). auto. }
  destruct Hr as [R1 R2 R3 R4 R5 R6 R7].
  assert (Om : forall c, c ∈ own s m -> c ∈ own s (p ++ m ++ q)).
  { intros c. rewrite !own_app. unfold own. rewrite map_app. intros. els. }
  assert (NDm : NoDup (own s m)).
  { revert R4. unfold own. rewrite !map_app. rewrite <- !app_assoc. intros N. apply nd_cons in N as [N1 N].
    apply NoDup_app in N as (_ & _ & N). apply NoDup_app in N as (N2 & N3 & N4). apply NoDup_app in N4 as (_ & _ & N4).
    apply nd_cons. split; [intros Hi; apply N1; els|]. apply NoDup_app. split; auto. split; auto.
    intros x Hx Hx2. apply (N3 x Hx). els. }
  assert (Eo : own s' m = own s m) by (unfold own; rewrite C1, C2; auto).
  pose proof NDm as ND. unfold own in ND. apply nd_cons in ND as [Nh ND]. apply NoDup_app in ND as (NDf & Nt & _).
  assert (Hht : hd s <> tl s) by (intros E; apply Nh; rewrite E; els).
  assert (If : f ∈ map fst m ++ [tl s]) by apply fst_or_in. assert (Il : l ∈ hd s :: map fst m) by apply last_or_in.
  assert (Hfh : f <> hd s) by (intros E; apply Nh; rewrite <- E; auto).
  assert (Hlt : l <> tl s). { intros E. apply elem_of_cons in Il as [Il|Il]; [congruence|]. apply (Nt l Il). rewrite E. left. }
  split.
  - constructor; try rewrite Eo; auto.
    + rewrite C1, C2. apply (dseg_retarget s s' (fst_or q (tl s)) (tl s) m (last_or (hd s) p) (hd s)); auto.
      * destruct (C (hd s)) as (-> & _). case_decide as E; [|rewrite decide_True; auto].
        destruct m as [|[x v] m]; [auto|]. exfalso. cbn in l. apply Nh. rewrite E. pose proof (last_or_in x m). els.
      * destruct (C (tl s)) as (_ & -> & _). rewrite decide_True; auto.
      * intros c Hc. destruct (C c) as (G1 & G2 & G3 & _). split; auto. rewrite G1, G2. split; fold l f.
        -- destruct (decide (c = l)); auto. destruct (decide (c = hd s)) as [->|]; auto. exfalso. apply Nh. els.
        -- destruct (decide (c = tl s)) as [->|]; auto. exfalso. apply (Nt (tl s) Hc). left.
    + rewrite C1. destruct (C (hd s)) as (_ & -> & _). rewrite !decide_False by auto. auto.
    + rewrite C2. destruct (C (tl s)) as (-> & _). rewrite !decide_False by auto. auto.
    + intros a Ha. destruct (R5 a (Om a Ha)) as [V L]. rewrite C3. split; auto. apply C. auto.
    + intros a Ha. rewrite C3 in Ha. assert (Hn := R6 a Ha). destruct (C a) as (_ & _ & _ & _ & G). rewrite G; auto.
      * intros ->. destruct (R5 (hd s)); [left|lia].
      * intros ->. destruct (R5 (tl s)); [unfold own; els|lia].
      * intros E. destruct (R5 f); [apply Om; unfold own; els|lia].
      * intros E. destruct (R5 l); [apply Om; unfold own; els|lia].
  - repeat apply conj; auto; [lia| |].
    + intros a Ha. left. rewrite !map_app. els.
    + intros a Ha Hn. apply C.
      * intros ->. apply Hn. left.
      * intros ->. apply Hn. unfold own. els.
      * intros ->. apply Hn, Om. unfold own. els.
      * intros ->. apply Hn, Om. unfold own. els.
Qed.
(** The four stores. *)
Lemma exec_cut s f l n : is_Some (cells s !! hd s) -> is_Some (cells s !! tl s) -> is_Some (cells s !! f) -> is_Some (cells s !! l) ->
  exists s', cut s f l n s' /\
  (set_next (Some (hd s)) (Some f) ;;== set_prev (Some f) (Some (hd s)) ;;==
   set_prev (Some (tl s)) (Some l) ;;== set_next (Some l) (Some (tl s)) ;;== set_len n) s = Ok tt s'.
Proof.
  intros Vh Vt Vf Vl. unfold set_next, set_prev.
  rewrite (bind_ok _ _ s tt _ (store_ok s (hd s) _ Vh)). set (s1 := upd s _ _).
  assert (Vf1 : is_Some (cells s1 !! f)) by (apply upd_valid; auto).
  rewrite (bind_ok _ _ s1 tt _ (store_ok s1 f _ Vf1)). set (s2 := upd s1 _ _).
  assert (Vt2 : is_Some (cells s2 !! tl s)) by (do 2 apply upd_valid; auto).
  rewrite (bind_ok _ _ s2 tt _ (store_ok s2 (tl s) _ Vt2)). set (s3 := upd s2 _ _).
  assert (Vl3 : is_Some (cells s3 !! l)) by (do 3 apply upd_valid; auto).
  rewrite (bind_ok _ _ s3 tt _ (store_ok s3 l _ Vl3)). set (s4 := upd s3 _ _).
  eexists. split; [|reflexivity]. repeat apply conj; auto. intros c.
  destruct (upd_next s (hd s) (Some f) c Vh) as (N1 & P1 & V1). fold s1 in N1, P1, V1.
  destruct (upd_prev s1 f (Some (hd s)) c Vf1) as (N2 & P2 & V2). fold s2 in N2, P2, V2.
  destruct (upd_prev s2 (tl s) (Some l) c Vt2) as (N3 & P3 & V3). fold s3 in N3, P3, V3.
  destruct (upd_next s3 l (Some (tl s)) c Vl3) as (N4 & P4 & V4). fold s4 in N4, P4, V4.
  split; [|split; [|split; [|split]]].
  - change (nxt s4 c = if decide (c = l) then Some (tl s) else if decide (c = hd s) then Some f else nxt s c). rewrite N4, N3, N2, N1. auto.
  - change (prv s4 c = if decide (c = tl s) then Some l else if decide (c = f) then Some (hd s) else prv s c). rewrite P4, P3, P2, P1. auto.
  - change (vl s4 c = vl s c). congruence.
  - change (is_Some (cells s4 !! c) <-> is_Some (cells s !! c)). unfold s4. rewrite upd_valid. unfold s3. rewrite upd_valid.
    unfold s2. rewrite upd_valid. unfold s1. apply upd_valid.
  - intros H1 H2 H3 H4. change (cells s4 !! c = cells s !! c). unfold s4, s3, s2, s1. rewrite !upd_other; auto.
Qed.
Lemma rep_ends s xs : rep s xs -> is_Some (cells s !! hd s) /\ is_Some (cells s !! tl s) /\ hd s <> tl s.
Proof.
  intros Hr. split; [apply (rep_in _ _ Hr); left|]. split; [apply (rep_in _ _ Hr); unfold own; els|].
  pose proof (rep_nodup _ _ Hr) as ND. unfold own in ND. apply nd_cons in ND as [Nh _]. intros E. apply Nh. rewrite E. els.
Qed.
Lemma m_clear_ok s xs : rep s xs -> exists s', m_clear s = Ok tt s' /\ rep s' [] /\ evolves s xs s' [].
Proof.
  intros Hr. pose proof (rep_len _ _ Hr) as HL. unfold m_clear. rewrite (bind_ok l_len _ s (ln s) s eq_refl), HL.
  destruct (Z.eqb_spec (zlen xs) 0) as [H0|H0].
  - assert (xs = []) as -> by (destruct xs; auto; unfold zlen in H0; cbn in H0; lia).
    exists s. split; [reflexivity|]. split; auto. apply evolves_refl.
  - destruct (rep_ends _ _ Hr) as (Vh & Vt & Hne). unfold mbind at 1 2, l_head, l_tail. unfold set_next, set_prev.
    rewrite (bind_ok _ _ s tt _ (store_ok s (hd s) _ Vh)). set (s1 := upd s _ _).
    assert (Vt1 : is_Some (cells s1 !! tl s)) by (apply upd_valid; auto).
    rewrite (bind_ok _ _ s1 tt _ (store_ok s1 (tl s) _ Vt1)). set (s2 := upd s1 _ _).
    eexists. split; [reflexivity|].
    rewrite <- (app_nil_r xs) in Hr |- *. apply (cut_rep s xs [] []); [exact Hr|]. cbn [fst_or last_or].
    repeat apply conj; auto. intros c.
    destruct (upd_next s (hd s) (Some (tl s)) c Vh) as (N1 & P1 & V1). fold s1 in N1, P1, V1.
    destruct (upd_prev s1 (tl s) (Some (hd s)) c Vt1) as (N2 & P2 & V2). fold s2 in N2, P2, V2.
    split; [|split; [|split; [|split]]].
    + change (nxt s2 c = if decide (c = hd s) then Some (tl s) else if decide (c = hd s) then Some (tl s) else nxt s c). rewrite N2, N1. repeat case_decide; auto.
    + change (prv s2 c = if decide (c = tl s) then Some (hd s) else if decide (c = tl s) then Some (hd s) else prv s c). rewrite P2, P1. repeat case_decide; auto.
    + change (vl s2 c = vl s c). congruence.
    + change (is_Some (cells s2 !! c) <-> is_Some (cells s !! c)). unfold s2. rewrite upd_valid. unfold s1. apply upd_valid.
    + intros H1 H2 H3 H4. change (cells s2 !! c = cells s !! c). unfold s2, s1. rewrite !upd_other; auto.
Qed.

Lemma trim_loop_ok s start end_ : forall ys fuel pos sn xs, rep s (xs ++ ys) -> (length ys <= fuel)%nat ->
  pos <= end_ < pos + zlen ys -> start <= end_ ->
  trim_loop fuel pos start end_ sn (Some (fst_or ys (tl s))) s =
    Ok (if start <? pos then sn else fst <$> ys !! Z.to_nat (start - pos), fst <$> ys !! Z.to_nat (end_ - pos)) s.
Proof.
  induction ys as [|[y w] ys IH]; intros fuel pos sn xs Hr Hf He Hs; [unfold zlen in He; cbn in He; lia|].
  destruct fuel as [|fuel]; cbn in Hf; [lia|]. destruct (rep_at s xs y w ys Hr) as (_ & A2 & _ & A4 & _ & _ & A7 & _).
  cbn [trim_loop fst_or]. unfold mbind at 1, l_tail. rewrite ptr_neq by auto. cbv zeta.
  destruct (Z.eqb_spec pos end_) as [E|E].
  - subst end_. replace (Z.to_nat (pos - pos)) with 0%nat by lia. cbn. unfold mret. do 2 f_equal.
    destruct (Z.eqb_spec pos start), (Z.ltb_spec start pos); try lia; auto.
    subst. replace (Z.to_nat (start - start)) with 0%nat by lia. auto.
  - erewrite bind_ok by (apply get_next_ok; auto). rewrite A2.
    assert (Ez2 : zlen ((y, w) :: ys) = zlen ys + 1) by (unfold zlen; cbn; lia).
    rewrite (IH fuel (pos + 1) _ (xs ++ [(y, w)])); [|rewrite <- app_assoc; auto|lia|lia|lia].
    replace (Z.to_nat (end_ - pos)) with (S (Z.to_nat (end_ - (pos + 1)))) by lia. cbn [lookup list_lookup].
    do 2 f_equal. destruct (Z.ltb_spec start pos), (Z.ltb_spec start (pos + 1)), (Z.eqb_spec pos start); try lia; auto.
    + subst. replace (Z.to_nat (start - start)) with 0%nat by lia. auto.
    + replace (Z.to_nat (start - pos)) with (S (Z.to_nat (start - (pos + 1)))) by lia. auto.
Qed.
Lemma m_trim_ok s xs a b fuel : rep s xs -> (length xs <= fuel)%nat ->
  match list_trim (map snd xs) a b with
  | Some l => exists s' xs', m_trim fuel a b s = Ok tt s' /\ rep s' xs' /\ evolves s xs s' xs' /\ map snd xs' = l
  | None => m_trim fuel a b s = NilDeref
  end.
Proof.
  intros Hr Hf. pose proof (rep_len _ _ Hr) as HL. unfold m_trim, list_trim, list_range.
  rewrite (bind_ok l_len _ s (ln s) s eq_refl), HL.
  assert (Ez : zlen (map snd xs) = zlen xs) by (unfold zlen; rewrite map_length; auto). rewrite Ez.
  set (st := if a <? 0 then zlen xs + a else a). set (en := if b <? 0 then zlen xs + b else b). cbv zeta.
  destruct (m_clear_ok s xs Hr) as (s1 & K1 & K2 & K3).
  assert (Zn : 0 <= zlen xs) by (unfold zlen; lia).
  destruct (rep_ends _ _ Hr) as (Vh & Vt & Hht).
  destruct ((zlen xs =? 0) && (a <? 0) && (0 <=? b)) eqn:Ec.
  { apply andb_prop in Ec as [Ec E3]. apply andb_prop in Ec as [E1 E2].
    assert (E : (en <? st) || (zlen xs <=? st) || (en <? 0) = false).
    { unfold st, en. rewrite E2. destruct (Z.ltb_spec b 0); [lia|].
      apply orb_false_intro; [apply orb_false_intro|]; lia. }
    rewrite E. unfold mbind at 1 2, l_head, l_tail.
    destruct (rep_between s [] xs Hr) as (B1 & _ & B3 & _). cbn in B1, B3.
    erewrite bind_ok by (apply get_next_ok; auto). rewrite B1.
    assert (xs = []) as -> by (destruct xs; auto; apply Z.eqb_eq in E1; unfold zlen in E1; cbn in E1; lia). cbn [fst_or].
    assert (El : forall p q r, trim_loop fuel p q r None (Some (tl s)) s = Ok (None, None) s).
    { intros. destruct fuel; cbn [trim_loop]; unfold mbind, l_tail; rewrite ptr_refl; auto. }
    erewrite bind_ok by apply El. cbn [fst]. unfold set_next.
    rewrite (bind_ok _ _ s tt _ (store_ok s (hd s) _ Vh)). reflexivity. }
  destruct ((en <? st) || (zlen xs <=? st) || (en <? 0)) eqn:Eo.
  { exists s1, []. auto. }
  apply orb_false_elim in Eo as [Eo E3]. apply orb_false_elim in Eo as [E1 E2].
  apply Z.ltb_ge in E1, E3. apply Z.leb_gt in E2.
  set (en2 := if zlen xs <=? en then zlen xs - 1 else en). set (st2 := if st <? 0 then 0 else st).
  assert (H2 : 0 <= st2 /\ st2 <= en2 /\ en2 < zlen xs).
  { unfold st2, en2, st, en in *. destruct (Z.eqb_spec (zlen xs) 0), (Z.ltb_spec a 0), (Z.leb_spec 0 b), (Z.ltb_spec b 0); cbn in Ec; try discriminate;
    repeat match goal with |- context [if ?c then _ else _] => destruct c eqn:? end; lia. }
  unfold mbind at 1 2, l_head, l_tail. destruct (rep_between s [] xs Hr) as (B1 & _ & B3 & _). cbn in B1, B3.
  erewrite bind_ok by (apply get_next_ok; auto). rewrite B1.
  erewrite bind_ok by (apply (trim_loop_ok s st2 en2 xs fuel 0 None []); auto; unfold zlen in *; lia).
  destruct (Z.ltb_spec st2 0); [lia|]. rewrite !Z.sub_0_r. cbn [fst snd].
  set (m := take (Z.to_nat (en2 - st2 + 1)) (drop (Z.to_nat st2) xs)).
  set (q := drop (Z.to_nat (en2 - st2 + 1)) (drop (Z.to_nat st2) xs)).
  assert (Exs : take (Z.to_nat st2) xs ++ m ++ q = xs) by (unfold m, q; rewrite !firstn_skipn; auto).
  assert (Lm : length m = Z.to_nat (en2 - st2 + 1)) by (unfold m; rewrite firstn_length, skipn_length; unfold zlen in *; lia).
  assert (Hf1 : fst <$> xs !! Z.to_nat st2 = Some (fst_or m (tl s))).
  { destruct (fst_or_drop (Z.to_nat st2) xs (tl s)) as (x & v & G1 & G2); [unfold zlen in *; lia|]. rewrite G1.
    unfold m. rewrite (drop_S _ _ _ G1). replace (Z.to_nat (en2 - st2 + 1)) with (S (Z.to_nat (en2 - st2))) by lia. auto. }
  assert (Hl1 : fst <$> xs !! Z.to_nat en2 = Some (last_or (hd s) m)).
  { assert (Em : m = take (S (Z.to_nat (en2 - st2))) (drop (Z.to_nat st2) xs)) by (unfold m; f_equal; lia).
    destruct (last_or_take (Z.to_nat (en2 - st2)) (drop (Z.to_nat st2) xs) (hd s)) as (x & v & G1 & G2); [rewrite skipn_length; unfold zlen in *; lia|].
    rewrite Em, G2. rewrite lookup_drop in G1. replace (Z.to_nat st2 + Z.to_nat (en2 - st2))%nat with (Z.to_nat en2) in G1 by lia. rewrite G1. auto. }
  rewrite Hf1, Hl1. rewrite <- Exs in Hr.
  assert (Vf : is_Some (cells s !! fst_or m (tl s))).
  { apply (rep_in _ _ Hr). rewrite own_app, map_app. pose proof (fst_or_in m (tl s)). els. }
  assert (Vl : is_Some (cells s !! last_or (hd s) m)).
  { apply (rep_in _ _ Hr). rewrite own_app, map_app. pose proof (last_or_in (hd s) m). els. }
  destruct (exec_cut s _ _ (en2 - st2 + 1) Vh Vt Vf Vl) as (s' & C & E).
  exists s', m. split; [exact E|]. replace (en2 - st2 + 1) with (zlen m) in C by (unfold zlen; lia).
  destruct (cut_rep _ _ _ _ _ Hr C) as [R V]. rewrite Exs in V. split; auto. split; auto.
  unfold m. rewrite <- firstn_map, <- skipn_map. auto.
Qed.

(** ** Every method *)
Lemma insert_after_none v p : forall ys s xs fuel ok, rep s (xs ++ ys) -> (length ys <= fuel)%nat ->
  existsb (fun x => veq x p) (map snd ys) = false -> after_loop fuel v p ok (Some (fst_or ys (tl s))) s = Ok ok s.
Proof.
  induction ys as [|[y w] ys IH]; intros s xs fuel ok Hr Hf He.
  - destruct fuel; cbn; unfold mbind, l_tail; rewrite ptr_refl; auto.
  - destruct fuel as [|fuel]; cbn in Hf; [lia|]. destruct (rep_at s xs y w ys Hr) as (_ & A2 & A3 & A4 & _ & _ & A7 & _).
    cbn in He. apply orb_false_elim in He as [He1 He2].
    cbn [after_loop fst_or]. unfold mbind at 1, l_tail. rewrite ptr_neq by auto.
    erewrite bind_ok by (apply get_val_ok; auto). rewrite A3, He1. unfold mbind at 1, mret at 1.
    erewrite bind_ok by (apply get_next_ok; auto). rewrite A2. apply (IH s (xs ++ [(y, w)])); auto; [rewrite <- app_assoc; auto|lia].
Qed.
Lemma insert_none p (f : val -> list val) l : existsb (fun x => veq x p) l = false ->
  concat (map (fun x => if veq x p then f x else [x]) l) = l.
Proof.
  induction l as [|x l IH]; cbn; auto. intros H. apply orb_false_elim in H as [H1 H2]. rewrite H1, IH by auto. auto.
Qed.
Lemma new_list_rep h n : (forall a, (n <= a)%nat -> h !! a = None) -> rep (new_list h n) [].
Proof.
  intros Hh. unfold new_list. constructor; unfold nxt, prv; cbn.
  - unfold nxt, prv; cbn. rewrite lookup_insert, lookup_insert_ne, lookup_insert by lia. auto.
  - rewrite lookup_insert_ne, lookup_insert by lia. auto.
  - rewrite lookup_insert. auto.
  - unfold own; cbn. apply nd_cons. split; [rewrite elem_of_cons, elem_of_nil; lia|]. apply NoDup_singleton.
  - unfold own; cbn. intros a Ha. apply elem_of_cons in Ha as [->|Ha].
    + split; [|lia]. rewrite lookup_insert_ne, lookup_insert by lia. eauto.
    + apply elem_of_cons in Ha as [->|Ha]; [|inversion Ha]. split; [|lia]. rewrite lookup_insert. eauto.
  - intros a Ha. rewrite !lookup_insert_ne by lia. apply Hh. lia.
  - auto.
Qed.
Lemma map_zlen (xs : list (nat * val)) : zlen (map snd xs) = zlen xs.
Proof. unfold zlen. rewrite map_length. auto. Qed.
Lemma call_ok o s xs : rep s xs -> op_ints o -> zlen xs < 2 ^ 62 ->
  match seq_op o (map snd xs) with
  | SDone r l => forall fuel, (2 * length xs + 2 <= fuel)%nat ->
      exists s' xs', call fuel o s = Ok r s' /\ rep s' xs' /\ evolves s xs s' xs' /\ l = map snd xs'
  | SCrash => forall fuel, (2 * length xs + 2 <= fuel)%nat -> call fuel o s = NilDeref
  | SHang => forall fuel, call fuel o s = NoFuel
  end.
Proof.
  intros Hr Ho Hz.
  assert (Same : forall r fuel, call fuel o s = Ok r s -> exists s' xs', call fuel o s = Ok r s' /\ rep s' xs' /\ evolves s xs s' xs' /\ map snd xs = map snd xs').
  { intros r fuel E. exists s, xs. split; auto. split; auto. split; auto. apply evolves_refl. }
  destruct (rep_between s [] xs Hr) as (B1 & _ & B3 & _). cbn in B1, B3.
  assert (Eh : forall C (k : option nat -> M C), (h <== l_head ;; c <== get_next h ;; k c) s = k (Some (fst_or xs (tl s))) s).
  { intros C k. unfold mbind at 1, l_head. erewrite bind_ok by (apply get_next_ok; auto). rewrite B1. auto. }
  destruct o; cbn [seq_op call op_ints] in *.
  - pose proof (fun fuel => index_ok s xs i fuel Hr Hz Ho) as H. destruct (list_index (map snd xs) i) as [|n|].
    + intros fuel Hf0. assert (Hf : (length xs + 2 <= fuel)%nat) by lia. apply Same. unfold mbind. rewrite H by auto. auto.
    + destruct (H (length xs + 2)%nat) as (x & v & E & _); [lia|]. rewrite list_lookup_fmap, E. cbn.
      intros fuel Hf0. assert (Hf : (length xs + 2 <= fuel)%nat) by lia. apply Same. destruct (H fuel Hf) as (x' & v' & E' & H').
      assert (x' = x /\ v' = v) as [-> ->] by (split; congruence). erewrite bind_ok by exact H'. cbn [node_val].
      rewrite <- (take_drop_middle _ _ _ E) in Hr. destruct (rep_at _ _ _ _ _ Hr) as (_ & _ & A3 & A4 & _).
      erewrite bind_ok by (apply get_val_ok; auto). rewrite A3. auto.
    + intros fuel Hf0. assert (Hf : (length xs + 2 <= fuel)%nat) by lia. unfold mbind. rewrite H by auto. auto.
  - intros fuel Hf0. assert (Hf : (length xs <= fuel)%nat) by lia. apply Same. unfold m_pos.
    assert (E := pos_ok s v xs fuel 0 [] Hr Hf). erewrite bind_ok by (rewrite Eh; exact E). auto.
  - intros fuel Hf0. assert (Hf : (length xs <= fuel)%nat) by lia. destruct (insert_before_ok v pivot xs s [] fuel false Hr Hf) as (s' & ys & E & R & V & Mp).
    exists s', ys. split; [|split; [auto|split; auto]]. unfold m_insert_before. erewrite bind_ok by (rewrite Eh; exact E). auto.
  - unfold list_insert_after. destruct (existsb (fun x => veq x pivot) (map snd xs)) eqn:Ee; [destruct (veq v pivot) eqn:Ev|]; cbn [andb].
    + intros fuel. pose proof (insert_after_hangs v pivot Ev fuel xs s [] false Hr Ee) as E.
      unfold m_insert_after. unfold mbind at 1. rewrite Eh, E. auto.
    + intros fuel Hf0. assert (Hf : (2 * length xs <= fuel)%nat) by lia. destruct (insert_after_ok v pivot Ev xs s [] fuel false Hr Hf) as (s' & ys & E & R & V & Mp).
      exists s', ys. split; [|split; [auto|split; auto]]. unfold m_insert_after. erewrite bind_ok by (rewrite Eh; exact E). rewrite Ee. auto.
    + intros fuel Hf0. assert (Hf : (length xs <= fuel)%nat) by lia. rewrite insert_none by auto. apply Same. unfold m_insert_after.
      erewrite bind_ok by (rewrite Eh; apply (insert_after_none v pivot xs s [] fuel false Hr Hf Ee)). auto.
  - destruct xs as [|[x v] xs]; cbn.
    + intros fuel _. apply (Same _ fuel). unfold m_lpop. unfold mbind, l_len. rewrite (rep_len _ _ Hr). reflexivity.
    + intros fuel _. destruct (lpop_ok _ _ _ _ Hr) as (s' & E & R & V & F & W). exists s', xs. split; auto.
      erewrite bind_ok by exact E. cbn. erewrite bind_ok by (apply get_val_ok; auto). rewrite F. auto.
  - unfold pop_right. destruct xs as [|[x v] xs _] using rev_ind.
    + intros fuel _. apply (Same _ fuel). unfold m_rpop. unfold mbind, l_len. rewrite (rep_len _ _ Hr). reflexivity.
    + rewrite map_app, rev_app_distr. cbn. rewrite rev_involutive.
      intros fuel _. destruct (rpop_ok _ _ _ _ Hr) as (s' & E & R & V & F & W). exists s', xs. split; auto.
      erewrite bind_ok by exact E. cbn. erewrite bind_ok by (apply get_val_ok; auto). rewrite F. auto.
  - intros fuel _. destruct (lpush_ok s xs v Hr) as (s' & E & R & V). eexists s', _. split; [|split; eauto].
    erewrite bind_ok by exact E. auto.
  - intros fuel _. destruct (rpush_ok s xs v Hr) as (s' & E & R & V). eexists s', _. split; [|split; [eauto|split; [eauto|]]].
    + erewrite bind_ok by exact E. auto.
    + rewrite map_app. auto.
  - intros fuel Hf0. assert (Hf : (length xs <= fuel)%nat) by lia. apply Same. erewrite bind_ok by (apply m_range_ok; eauto). auto.
  - destruct (list_rem (map snd xs) v n) as [k l] eqn:El. intros fuel Hf0. assert (Hf : (length xs <= fuel)%nat) by lia.
    destruct (m_remove_ok s xs v n fuel Hr Hf) as (s' & xs' & E & R & V & Mp). rewrite El in *. cbn in *.
    exists s', xs'. split; auto. erewrite bind_ok by exact E. auto.
  - pose proof (fun fuel => m_set_ok s xs i v fuel Hr Hz Ho) as H. destruct (list_index (map snd xs) i) as [|n|].
    + intros fuel Hf0. assert (Hf : (length xs + 2 <= fuel)%nat) by lia. apply Same. unfold mbind. rewrite H by auto. auto.
    + intros fuel Hf0. assert (Hf : (length xs + 2 <= fuel)%nat) by lia. destruct (H fuel Hf) as (s' & xs' & E & R & V & Mp).
      exists s', xs'. split; auto. erewrite bind_ok by exact E. auto.
    + intros fuel Hf0. assert (Hf : (length xs + 2 <= fuel)%nat) by lia. unfold mbind. rewrite H by auto. auto.
  - pose proof (fun fuel => m_trim_ok s xs a b fuel Hr) as H. destruct (list_trim (map snd xs) a b) as [l|].
    + intros fuel Hf0. assert (Hf : (length xs <= fuel)%nat) by lia. destruct (H fuel Hf) as (s' & xs' & E & R & V & Mp).
      exists s', xs'. split; auto. erewrite bind_ok by exact E. auto.
    + intros fuel Hf0. assert (Hf : (length xs <= fuel)%nat) by lia. unfold mbind. rewrite H by auto. auto.
  - intros fuel _. destruct (m_clear_ok s xs Hr) as (s' & E & R & V). exists s', []. split; auto. erewrite bind_ok by exact E. auto.
  - intros fuel _. apply (Same _ fuel). unfold mbind, l_len, mret. rewrite (rep_len _ _ Hr), map_zlen. auto.
Qed.

Lemma represents_call o s l : represents s l -> op_ints o -> zlen l < 2 ^ 62 ->
  match seq_op o l with
  | SDone r l' => forall fuel, (2 * length l + 2 <= fuel)%nat -> exists s', call fuel o s = Ok r s' /\ represents s' l'
  | SCrash => forall fuel, (2 * length l + 2 <= fuel)%nat -> call fuel o s = NilDeref
  | SHang => forall fuel, call fuel o s = NoFuel
  end.
Proof.
  intros (xs & Hr & ->) Ho Hz. rewrite map_zlen in Hz. pose proof (call_ok o s xs Hr Ho Hz) as H. rewrite map_length.
  destruct (seq_op o (map snd xs)); auto. intros fuel Hf.
  destruct (H fuel Hf) as (s' & xs' & E & R & _ & ->). exists s'. split; auto. exists xs'. auto.
Qed.
Lemma represents_calls l os rs l' : ops_on l os rs l' ->
  exists n, forall fuel s, (n <= fuel)%nat -> represents s l -> exists s', calls fuel os s = Ok rs s' /\ represents s' l'.
Proof.
  induction 1 as [l|l o os r rs l1 l' Ho Hz E _ IH].
  - exists 0%nat. intros fuel s _ Hs. exists s. auto.
  - destruct IH as [n IH]. exists (2 * length l + 2 + n)%nat. intros fuel s Hf Hs.
    pose proof (represents_call o s l Hs Ho Hz) as H. rewrite E in H. destruct (H fuel) as (s1 & E1 & R1); [lia|].
    destruct (IH fuel s1) as (s' & E' & R'); [lia|auto|]. exists s'. split; auto.
    cbn [calls]. erewrite bind_ok by exact E1. erewrite bind_ok by exact E'. auto.
Qed.
Lemma history_ok os rs l h k : (forall a, (k <= a)%nat -> h !! a = None) -> ops_on [] os rs l ->
  exists n, forall fuel, (n <= fuel)%nat -> exists s, calls fuel os (new_list h k) = Ok rs s /\ represents s l.
Proof.
  intros Hh H. apply represents_calls in H as [n H]. exists n. intros fuel Hf. apply H; auto.
  exists []. split; auto. apply new_list_rep; auto.
Qed.
Lemma evolves_beside s xs s' xs' t ys : evolves s xs s' xs' -> rep s' xs' -> beside s xs t ys ->
  beside s' xs' (in_heap_of s' t) ys.
Proof.
  intros (E1 & E2 & E3 & E4 & E5) Hr (R & C & N & D).
  assert (F : forall a, a ∈ own t ys -> cells s' !! a = cells t !! a).
  { intros a Ha. rewrite C. apply E5; [rewrite <- N; apply (rep_in _ _ R); auto|]. intros Hi. apply (D a Hi Ha). }
  assert (O : own (in_heap_of s' t) ys = own t ys) by reflexivity.
  split; [|split; [auto|split; [auto|]]].
  - destruct R as [R1 R2 R3 R4 R5 R6 R7]. constructor; auto.
    + assert (G : forall c, c ∈ own t ys -> nxt (in_heap_of s' t) c = nxt t c /\ prv (in_heap_of s' t) c = prv t c /\ vl (in_heap_of s' t) c = vl t c).
      { intros c Hc. unfold nxt, prv, vl. cbn. rewrite F; auto. }
      eapply dseg_frame; [exact R1| | |]; intros c Hc; apply G; unfold own; els.
    + unfold prv. cbn. rewrite F by left. exact R2.
    + unfold nxt. cbn. rewrite F by (unfold own; els). exact R3.
    + rewrite O. intros a Ha. cbn. rewrite F by auto. destruct (R5 a Ha). split; auto. lia.
    + intros a Ha. apply (rep_fresh _ _ Hr). auto.
  - rewrite O. intros a Ha Hi. unfold own in Ha. rewrite E1, E2 in Ha. apply elem_of_cons in Ha as [->|Ha]; [apply (D (hd s)); [left|auto]|].
    apply elem_of_app in Ha as [Ha|Ha].
    + apply E4 in Ha as [Ha|Ha]; [apply (D a); auto; unfold own; els|].
      destruct (rep_in _ _ R a Hi). lia.
    + apply (D a); auto. unfold own. els.
Qed.
Lemma call_beside o s xs t ys r l : rep s xs -> op_ints o -> zlen xs < 2 ^ 62 -> seq_op o (map snd xs) = SDone r l -> beside s xs t ys ->
  exists n, forall fuel, (n <= fuel)%nat ->
  exists s' xs', call fuel o s = Ok r s' /\ rep s' xs' /\ map snd xs' = l /\ beside s' xs' (in_heap_of s' t) ys.
Proof.
  intros Hr Ho Hz E Hb. pose proof (call_ok o s xs Hr Ho Hz) as H. rewrite E in H. exists (2 * length xs + 2)%nat.
  intros fuel Hf. destruct (H fuel Hf) as (s' & xs' & E' & R & V & ->). exists s', xs'. split; auto. split; auto. split; auto.
  eapply evolves_beside; eauto.
Qed.
Lemma represents_ends o s l : represents s l -> op_ints o -> zlen l < 2 ^ 62 ->
  match seq_op o l with
  | SDone r l' => exists n, forall fuel, (n <= fuel)%nat -> exists s', call fuel o s = Ok r s' /\ represents s' l'
  | SCrash => exists n, forall fuel, (n <= fuel)%nat -> call fuel o s = NilDeref
  | SHang => forall fuel, call fuel o s = NoFuel
  end.
Proof.
  intros Hs Ho Hz. pose proof (represents_call o s l Hs Ho Hz) as H.
  destruct (seq_op o l); auto; eexists; exact H.
Qed.

Lemma list_index_fine l i : min_int <= i <= max_int -> zlen l < 2 ^ 62 ->
  match list_index l i with
  | LI_none => i <> min_int | LI_at n => i <> min_int /\ is_Some (l !! n) | LI_crash => i = min_int end.
Proof.
  intros Hi Hz. unfold list_index. destruct (Z.ltb_spec i 0).
  - destruct (Z.eq_dec i min_int) as [->|Hn].
    + change (wrap64 (- min_int)) with min_int. destruct (Z.ltb_spec (zlen l) min_int); [unfold zlen, min_int in *; lia|]. reflexivity.
    + rewrite wrap64_id by (unfold min_int, max_int in *; lia). destruct (Z.ltb_spec (zlen l) (- i)); auto.
      destruct (Z.ltb_spec (- i) 0); [lia|]. split; auto. apply lookup_lt_is_Some_2. unfold zlen in *. lia.
  - destruct (Z.leb_spec (zlen l) i); [unfold min_int; lia|]. split; [unfold min_int; lia|].
    apply lookup_lt_is_Some_2. unfold zlen in *. lia.
Qed.
Lemma veq_true x y : veq x y = true <-> str x = str y.
Proof. unfold veq. apply bool_decide_eq_true. Qed.
Lemma returns_iff o l : op_ints o -> zlen l < 2 ^ 62 -> (exists r l', seq_op o l = SDone r l') <-> ~ bad_call o l.
Proof.
  intros Ho Hz. destruct o; cbn [seq_op bad_call op_ints] in *; try (split; [tauto|eauto; fail]).
  - pose proof (list_index_fine l i Ho Hz) as H. destruct (list_index l i); [split; eauto| |split; [intros (? & ? & ?); discriminate|tauto]].
    destruct H as [H [x E]]. rewrite E. split; eauto.
  - unfold list_insert_after. destruct (existsb (fun x => veq x pivot) l && veq v pivot) eqn:E.
    + split; [intros (? & ? & ?); discriminate|]. intros H. exfalso. apply H. apply andb_prop in E as [E1 E2].
      apply veq_true in E2. split; auto. apply existsb_exists in E1 as (x & Hx & E1). apply veq_true in E1. exists x. split; auto.
      apply elem_of_list_In. auto.
    + split; [|eauto]. intros _ [Hv (x & Hx & Hp)]. apply andb_false_iff in E as [E|E].
      * apply elem_of_list_In in Hx. assert (existsb (fun x => veq x pivot) l = true); [|congruence].
        apply existsb_exists. exists x. split; auto. apply veq_true. auto.
      * assert (veq v pivot = true) by (apply veq_true; auto). congruence.
  - destruct (pop_left l) as [[]|]; split; eauto.
  - destruct (pop_right l) as [[]|]; split; eauto.
  - destruct (list_rem l v n). split; eauto.
  - pose proof (list_index_fine l i Ho Hz) as H. destruct (list_index l i); [split; eauto|split; [|eauto]|split; [intros (? & ? & ?); discriminate|tauto]]. tauto.
  - unfold list_trim. destruct ((zlen l =? 0) && (a <? 0) && (0 <=? b)) eqn:E.
    + split; [intros (? & ? & ?); discriminate|]. intros H. exfalso. apply H. apply andb_prop in E as [E E3]. apply andb_prop in E as [E1 E2].
      split; [|lia]. destruct l; auto. apply Z.eqb_eq in E1. unfold zlen in E1. cbn in E1. lia.
    + split; [|eauto]. intros _ (-> & Ha & Hb). cbn in E. destruct (Z.ltb_spec a 0), (Z.leb_spec 0 b); try lia. discriminate.
Qed.
