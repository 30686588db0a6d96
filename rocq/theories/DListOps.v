(** The methods of the linked list. *)
From Verif Require Export DListProofs.

(** ** Field accesses *)
Lemma get_next_ok s a : is_Some (cells s !! a) -> get_next (Some a) s = Ok (nxt s a) s.
Proof. intros [n H]. unfold get_next, mbind, deref, nxt. rewrite H. auto. Qed.
Lemma get_prev_ok s a : is_Some (cells s !! a) -> get_prev (Some a) s = Ok (prv s a) s.
Proof. intros [n H]. unfold get_prev, mbind, deref, prv. rewrite H. auto. Qed.
Lemma get_val_ok s a : is_Some (cells s !! a) -> get_val (Some a) s = Ok (vl s a) s.
Proof. intros [n H]. unfold get_val, mbind, deref, vl. rewrite H. auto. Qed.
Lemma bind_ok {A C} (m : M A) (k : A -> M C) s a s' : m s = Ok a s' -> mbind m k s = k a s'.
Proof. unfold mbind. intros ->. auto. Qed.

Lemma exec_ins_before {C} s a b v (k : M C) : is_Some (cells s !! a) -> is_Some (cells s !! b) ->
  prv s b = Some a -> a <> b -> (a < nfree s)%nat -> (b < nfree s)%nat ->
  exists s', linked_in s a b v s' /\
  (p <== get_prev (Some b) ;; node <== alloc p (Some b) v ;; set_prev (Some b) node ;;== q <== get_prev node ;;
   set_next q node ;;== len <== l_len ;; set_len (len + 1) ;;== k) s = k s'.
Proof.
  intros [na Ha] [nb Hb] Hp Hab La Lb. unfold prv in Hp. rewrite Hb in Hp.
  unfold mbind, get_prev, set_prev, set_next, store, alloc, deref, l_len, set_len, mret, mbind. rewrite Hb. cbn. rewrite Hp.
  rewrite lookup_insert_ne, Hb by lia. cbn. rewrite lookup_insert_ne, lookup_insert by lia. cbn.
  rewrite lookup_insert_ne, lookup_insert_ne, Ha by lia. cbn. eexists. split; [|reflexivity].
  repeat apply conj; auto. exists na, nb. repeat apply conj; auto. cbn. intros c.
  repeat case_decide; subst; try congruence; try lia.
  - rewrite lookup_insert_ne, lookup_insert_ne, lookup_insert by lia. auto.
  - rewrite lookup_insert. auto.
  - rewrite lookup_insert_ne, lookup_insert by lia. auto.
  - rewrite !lookup_insert_ne by lia. auto.
Qed.
Lemma exec_ins_after {C} s a b v (k : M C) : is_Some (cells s !! a) -> is_Some (cells s !! b) ->
  nxt s a = Some b -> a <> b -> (a < nfree s)%nat -> (b < nfree s)%nat ->
  exists s', linked_in s a b v s' /\
  (q <== get_next (Some a) ;; node <== alloc (Some a) q v ;; set_next (Some a) node ;;== p <== get_next node ;;
   set_prev p node ;;== len <== l_len ;; set_len (len + 1) ;;== k) s = k s'.
Proof.
  intros [na Ha] [nb Hb] Hp Hab La Lb. unfold nxt in Hp. rewrite Ha in Hp.
  unfold mbind, get_next, set_prev, set_next, store, alloc, deref, l_len, set_len, mret, mbind. rewrite Ha. cbn. rewrite Hp.
  rewrite lookup_insert_ne, Ha by lia. cbn. rewrite lookup_insert_ne, lookup_insert by lia. cbn.
  rewrite lookup_insert_ne, lookup_insert_ne, Hb by lia. cbn. eexists. split; [|reflexivity].
  repeat apply conj; auto. exists na, nb. repeat apply conj; auto. cbn. intros c.
  repeat case_decide; subst; try congruence; try lia.
  - rewrite lookup_insert_ne, lookup_insert_ne, lookup_insert by lia. auto.
  - rewrite lookup_insert_ne, lookup_insert by lia. auto.
  - rewrite lookup_insert. auto.
  - rewrite !lookup_insert_ne by lia. auto.
Qed.
Lemma exec_unlink {C} s a x b (k : M C) : is_Some (cells s !! a) -> is_Some (cells s !! b) -> is_Some (cells s !! x) ->
  prv s x = Some a -> nxt s x = Some b -> a <> b -> a <> x -> b <> x ->
  exists s', unlinked s a b s' /\
  (q <== get_next (Some x) ;; p <== get_prev (Some x) ;; set_prev q p ;;== p <== get_prev (Some x) ;; q <== get_next (Some x) ;;
   set_next p q ;;== len <== l_len ;; set_len (len - 1) ;;== k) s = k s'.
Proof.
  intros [na Ha] [nb Hb] [nx Hx] Hp Hn Hab Hax Hbx. unfold nxt, prv in *. rewrite Hx in Hp, Hn.
  unfold mbind, get_next, get_prev, set_prev, set_next, store, deref, l_len, set_len, mret, mbind. rewrite Hx, Hx. cbn. rewrite Hp, Hn, Hb. cbn.
  rewrite lookup_insert_ne, Hx by auto. cbn. rewrite lookup_insert_ne, Hx by auto. cbn. rewrite Hp, Hn.
  rewrite lookup_insert_ne, Ha by auto. cbn. eexists. split; [|reflexivity].
  repeat apply conj; auto. exists na, nb. repeat apply conj; auto. cbn. intros c.
  repeat case_decide; subst; try congruence.
  - rewrite lookup_insert. auto.
  - rewrite lookup_insert_ne, lookup_insert by auto. auto.
  - rewrite !lookup_insert_ne by auto. auto.
Qed.

(** ** Facts about a represented list *)
Lemma rep_at s xs x v ys : rep s (xs ++ (x, v) :: ys) ->
  prv s x = Some (last_or (hd s) xs) /\ nxt s x = Some (fst_or ys (tl s)) /\ vl s x = v /\
  is_Some (cells s !! x) /\ (x < nfree s)%nat /\ x <> hd s /\ x <> tl s /\
  last_or (hd s) xs <> x /\ fst_or ys (tl s) <> x /\ last_or (hd s) xs <> fst_or ys (tl s).
Proof.
  intros Hr. pose proof (rep_seg _ _ Hr) as S. apply dseg_split in S as (S1 & S2 & S3).
  assert (Ix : x ∈ own s (xs ++ (x, v) :: ys)) by (rewrite own_app; els).
  destruct (rep_in _ _ Hr x Ix) as [V L]. pose proof (rep_nodup _ _ Hr) as ND. rewrite own_app in ND. cbn in ND.
  change (hd s :: map fst xs ++ x :: map fst ys ++ [tl s]) with ((hd s :: map fst xs) ++ x :: (map fst ys ++ [tl s])) in ND.
  rewrite <- Permutation_middle in ND. apply nd_cons in ND as [Nx ND]. apply NoDup_app in ND as (_ & ND & _).
  pose proof (last_or_in (hd s) xs) as I1. pose proof (fst_or_in ys (tl s)) as I2.
  repeat apply conj; auto.
  - apply (dseg_prev _ _ _ _ S1).
  - apply (dseg_next _ _ _ _ S3).
  - intros ->. apply Nx. els.
  - intros ->. apply Nx. els.
  - intros E. rewrite E in I1. apply Nx. els.
  - intros E. rewrite E in I2. apply Nx. els.
  - intros E. rewrite E in I1. exact (ND _ I1 I2).
Qed.
Lemma rep_between s xs ys : rep s (xs ++ ys) ->
  nxt s (last_or (hd s) xs) = Some (fst_or ys (tl s)) /\ prv s (fst_or ys (tl s)) = Some (last_or (hd s) xs) /\
  is_Some (cells s !! last_or (hd s) xs) /\ is_Some (cells s !! fst_or ys (tl s)) /\
  (last_or (hd s) xs < nfree s)%nat /\ (fst_or ys (tl s) < nfree s)%nat /\ last_or (hd s) xs <> fst_or ys (tl s).
Proof.
  intros Hr. destruct (seg_parts _ _ _ Hr) as [S1 S2].
  destruct (rep_in _ _ Hr _ (last_or_own s xs ys)). destruct (rep_in _ _ Hr _ (fst_or_own s xs ys)).
  destruct (nodup_between _ _ _ (rep_nodup _ _ Hr)) as [Hne _]. repeat apply conj; auto.
  - apply (dseg_next _ _ _ _ S2).
  - apply (dseg_prev _ _ _ _ S1).
Qed.
Lemma ptr_neq a b : a <> b -> ptr_eqb (Some a) (Some b) = false.
Proof. intros H. apply bool_decide_eq_false. congruence. Qed.
Lemma ptr_refl a : ptr_eqb a a = true.
Proof. apply bool_decide_eq_true. auto. Qed.
Lemma evolves_hd s xs s' xs' : evolves s xs s' xs' -> hd s' = hd s.
Proof. intros (H & _). auto. Qed.
Lemma evolves_tl s xs s' xs' : evolves s xs s' xs' -> tl s' = tl s.
Proof. intros (_ & H & _). auto. Qed.

(** ** Push and pop *)
Lemma lpush_ok s xs v : rep s xs -> exists s', m_lpush v s = Ok tt s' /\ rep s' ((nfree s, v) :: xs) /\ evolves s xs s' ((nfree s, v) :: xs).
Proof.
  intros Hr. destruct (rep_between s [] xs Hr) as (B1 & B2 & B3 & B4 & B5 & B6 & B7). cbn in *.
  destruct (exec_ins_after s _ _ v (mret tt) B3 B4 B1 B7 B5 B6) as (s' & L & E).
  exists s'. split; [exact E|]. apply (link_rep s [] xs v s' Hr L).
Qed.
Lemma rpush_ok s xs v : rep s xs -> exists s', m_rpush v s = Ok tt s' /\ rep s' (xs ++ [(nfree s, v)]) /\ evolves s xs s' (xs ++ [(nfree s, v)]).
Proof.
  intros Hr. rewrite <- (app_nil_r xs) in Hr. destruct (rep_between s xs [] Hr) as (B1 & B2 & B3 & B4 & B5 & B6 & B7). cbn in *.
  destruct (exec_ins_before s _ _ v (mret tt) B3 B4 B2 B7 B5 B6) as (s' & L & E).
  exists s'. split; [exact E|]. pose proof (link_rep s xs [] v s' Hr L) as [H1 H2]. rewrite app_nil_r in H2. auto.
Qed.
Lemma lpop_ok s x v xs : rep s ((x, v) :: xs) -> exists s', m_lpop s = Ok (Some x) s' /\ rep s' xs /\ evolves s ((x, v) :: xs) s' xs /\
  vl s' x = v /\ is_Some (cells s' !! x).
Proof.
  intros Hr. destruct (rep_at s [] x v xs Hr) as (A1 & A2 & A3 & A4 & A5 & A6 & A7 & A8 & A9 & A10).
  destruct (rep_between s [] _ Hr) as (B1 & _ & B3 & _). destruct (rep_between s [(x, v)] xs Hr) as (_ & _ & _ & B4 & _). cbn in *.
  pose proof (rep_len _ _ Hr) as HL. unfold zlen in HL. cbn in HL.
  set (b := fst_or xs (tl s)) in *. destruct B3 as [na Ha], B4 as [nb Hb], A4 as [nx Hx].
  assert (E : exists s', unlinked s (hd s) b s' /\ m_lpop s = Ok (Some x) s').
  { unfold m_lpop, mbind, l_len, l_head, get_next, mbind, deref, set_next, set_prev, store, set_len, mret.
    destruct (Z.eqb_spec (ln s) 0); [lia|]. cbn. rewrite Ha. cbn. unfold nxt in B1, A2. rewrite Ha in B1. rewrite Hx in A2. rewrite B1, Hx. cbn.
    rewrite Ha. cbn. rewrite lookup_insert_ne, Hx by auto. cbn. rewrite A2. rewrite lookup_insert_ne, Hb by auto. cbn.
    eexists. split; [|reflexivity]. repeat apply conj; auto. exists na, nb. repeat apply conj; auto. cbn. intros c.
    repeat case_decide; subst; try congruence.
    - rewrite lookup_insert_ne, lookup_insert by auto. auto.
    - rewrite lookup_insert. auto.
    - rewrite !lookup_insert_ne by auto. auto. }
  destruct E as (s' & U & E). exists s'. split; [exact E|].
  destruct (unlink_rep s [] x v xs s' Hr U) as [H1 H2]. split; auto. split; auto.
  destruct (unlinked_fields _ _ _ _ U A10 x) as (_ & _ & F3). split; [rewrite F3; auto|].
  destruct U as (_ & _ & _ & _ & ? & ? & _ & _ & U). rewrite U, !decide_False; eauto.
Qed.
Lemma rpop_ok s x v xs : rep s (xs ++ [(x, v)]) -> exists s', m_rpop s = Ok (Some x) s' /\ rep s' xs /\ evolves s (xs ++ [(x, v)]) s' xs /\
  vl s' x = v /\ is_Some (cells s' !! x).
Proof.
  intros Hr. destruct (rep_at s xs x v [] Hr) as (A1 & A2 & A3 & A4 & A5 & A6 & A7 & A8 & A9 & A10).
  destruct (rep_between s xs _ Hr) as (_ & _ & B3 & _). pose proof Hr as Hr'. rewrite <- (app_nil_r (xs ++ [(x, v)])) in Hr'.
  destruct (rep_between s (xs ++ [(x, v)]) [] Hr') as (_ & B1 & _ & B4 & _). cbn in *. rewrite last_or_app in B1.
  pose proof (rep_len _ _ Hr) as HL. unfold zlen in HL. rewrite app_length in HL. cbn in HL.
  set (a := last_or (hd s) xs) in *. destruct B3 as [na Ha], B4 as [nb Hb], A4 as [nx Hx].
  assert (E : exists s', unlinked s a (tl s) s' /\ m_rpop s = Ok (Some x) s').
  { unfold m_rpop, mbind, l_len, l_tail, get_prev, mbind, deref, set_next, set_prev, store, set_len, mret.
    destruct (Z.eqb_spec (ln s) 0); [lia|]. cbn. rewrite Hb. cbn. unfold prv in B1, A1. rewrite Hb in B1. rewrite Hx in A1. rewrite B1, Hx. cbn.
    rewrite Hb. cbn. rewrite lookup_insert_ne, Hx by auto. cbn. rewrite A1. rewrite lookup_insert_ne, Ha by auto. cbn.
    eexists. split; [|reflexivity]. repeat apply conj; auto. exists na, nb. repeat apply conj; auto. cbn. intros c.
    repeat case_decide; subst; try congruence.
    - rewrite lookup_insert. auto.
    - rewrite lookup_insert_ne, lookup_insert by auto. auto.
    - rewrite !lookup_insert_ne by auto. auto. }
  destruct E as (s' & U & E). exists s'. split; [exact E|].
  destruct (unlink_rep s xs x v [] s' Hr U) as [H1 H2]. rewrite app_nil_r in *. split; auto. split; auto.
  destruct (unlinked_fields _ _ _ _ U A10 x) as (_ & _ & F3). split; [rewrite F3; auto|].
  destruct U as (_ & _ & _ & _ & ? & ? & _ & _ & U). rewrite U, !decide_False; eauto.
Qed.

(** ** Walking *)
Lemma step_fwd s n : forall k fuel i xs ys, rep s (xs ++ ys) -> (k <= length ys)%nat -> (k <= fuel)%nat -> n = i + Z.of_nat k ->
  step_loop fuel false i n (Some (fst_or ys (tl s))) s = Ok (Some (fst_or (drop k ys) (tl s))) s.
Proof.
  induction k as [|k IH]; intros fuel i xs ys Hr Hk Hf ->.
  - destruct fuel; cbn [step_loop]; destruct (Z.ltb_spec i (i + Z.of_nat 0)); try lia; auto.
  - destruct fuel as [|fuel]; [lia|]. destruct ys as [|[y w] ys]; cbn in Hk; [lia|].
    cbn [step_loop fst_or]. destruct (Z.ltb_spec i (i + Z.of_nat (S k))); [|lia].
    destruct (rep_at s xs y w ys Hr) as (_ & A2 & _ & A4 & _).
    erewrite bind_ok by (apply get_next_ok; auto). rewrite A2. cbn [skipn].
    apply (IH fuel (i + 1) (xs ++ [(y, w)]) ys); [rewrite <- app_assoc; auto|lia|lia|lia].
Qed.
Lemma last_or_snoc xs : forall a x v, last_or a (xs ++ [(x, v)]) = x.
Proof. intros. apply last_or_app. Qed.
Lemma step_back s n xs : forall k fuel i ys, rep s (xs ++ ys) -> (k <= length xs)%nat -> (k <= fuel)%nat -> n = i + Z.of_nat k ->
  step_loop fuel true i n (Some (last_or (hd s) xs)) s = Ok (Some (last_or (hd s) (take (length xs - k) xs))) s.
Proof.
  induction xs as [|[x w] xs IH] using rev_ind; intros k fuel i ys Hr Hk Hf ->.
  - cbn in Hk. replace k with 0%nat by lia. destruct fuel; cbn [step_loop]; destruct (Z.ltb_spec i (i + Z.of_nat 0)); try lia; auto.
  - destruct k as [|k].
    + destruct fuel; cbn [step_loop]; destruct (Z.ltb_spec i (i + Z.of_nat 0)); try lia; rewrite firstn_all2 by lia; auto.
    + destruct fuel as [|fuel]; [lia|]. rewrite app_length in *. cbn in Hk. rewrite <- app_assoc in Hr. cbn in Hr.
      cbn [step_loop]. destruct (Z.ltb_spec i (i + Z.of_nat (S k))); [|lia]. rewrite last_or_app.
      destruct (rep_at s xs x w ys Hr) as (A1 & _ & _ & A4 & _).
      erewrite bind_ok by (apply get_prev_ok; auto). rewrite A1.
      rewrite (IH k fuel (i + 1) ((x, w) :: ys)); auto; try lia.
      cbn [length]. replace (length xs + 1 - S k)%nat with (length xs - k)%nat by lia. rewrite take_app_le by lia. auto.
Qed.
Lemma step_back_crash s n xs : forall fuel i ys, rep s (xs ++ ys) -> (length xs + 2 <= fuel)%nat -> i + Z.of_nat (length xs) + 1 < n ->
  step_loop fuel true i n (Some (last_or (hd s) xs)) s = NilDeref.
Proof.
  induction xs as [|[x w] xs IH] using rev_ind; intros fuel i ys Hr Hf Hn.
  - cbn in Hf, Hn. destruct fuel as [|[|fuel]]; try lia. cbn [step_loop last_or].
    destruct (Z.ltb_spec i n); [|lia]. destruct (rep_between s [] ys Hr) as (_ & _ & B3 & _).
    erewrite bind_ok by (apply get_prev_ok; auto). rewrite (rep_first _ _ Hr).
    destruct (Z.ltb_spec (i + 1) n); [|lia]. reflexivity.
  - rewrite app_length in *. cbn in Hf, Hn. destruct fuel as [|fuel]; [lia|]. rewrite <- app_assoc in Hr. cbn in Hr.
    cbn [step_loop]. destruct (Z.ltb_spec i n); [|lia]. rewrite last_or_app.
    destruct (rep_at s xs x w ys Hr) as (A1 & _ & _ & A4 & _).
    erewrite bind_ok by (apply get_prev_ok; auto). rewrite A1. apply (IH fuel (i + 1) ((x, w) :: ys)); auto; lia.
Qed.
Lemma fst_or_drop k xs b : (k < length xs)%nat -> exists x v, xs !! k = Some (x, v) /\ fst_or (drop k xs) b = x.
Proof.
  intros H. destruct (lookup_lt_is_Some_2 xs k H) as [[x v] E]. exists x, v. split; auto. rewrite (drop_S _ _ _ E). auto.
Qed.
Lemma last_or_take k xs a : (k < length xs)%nat -> exists x v, xs !! k = Some (x, v) /\ last_or a (take (S k) xs) = x.
Proof.
  intros H. destruct (lookup_lt_is_Some_2 xs k H) as [[x v] E]. exists x, v. split; auto. rewrite (take_S_r _ _ _ E). apply last_or_app.
Qed.
Lemma wrap64_id n : min_int <= n <= max_int -> wrap64 n = n.
Proof. unfold wrap64, min_int, max_int. intros H. rewrite Z.mod_small; lia. Qed.
(** Index: the node number. *)
Lemma index_ok s xs i fuel : rep s xs -> zlen xs < 2 ^ 62 -> min_int <= i <= max_int -> (length xs + 2 <= fuel)%nat ->
  match list_index (map snd xs) i with
  | LI_none => m_index fuel i s = Ok None s
  | LI_at n => exists x v, xs !! n = Some (x, v) /\ m_index fuel i s = Ok (Some x) s
  | LI_crash => m_index fuel i s = NilDeref
  end.
Proof.
  intros Hr Hz Hi Hf. pose proof (rep_len _ _ Hr) as HL. unfold list_index.
  assert (Ez : zlen (map snd xs) = zlen xs) by (unfold zlen; rewrite map_length; auto). rewrite Ez.
  pose proof (eq_refl (m_index fuel i s)) as Em. unfold m_index at 2 in Em.
  rewrite (bind_ok l_len _ s (ln s) s eq_refl), HL in Em. rewrite Em. clear Em.
  destruct (Z.ltb_spec i 0) as [Hn|Hn].
  - destruct (Z.ltb_spec (zlen xs) (wrap64 (- i))) as [H1|H1]; [reflexivity|].
    pose proof Hr as Hr'. rewrite <- (app_nil_r xs) in Hr'. destruct (rep_between s xs [] Hr') as (_ & B2 & _ & B4 & _). cbn in B2, B4.
    assert (Et : forall C (k : option nat -> M C), (t <== l_tail ;; c <== get_prev t ;; k c) s = k (Some (last_or (hd s) xs)) s).
    { intros C k. unfold mbind at 1, l_tail. erewrite bind_ok by (apply get_prev_ok; auto). rewrite B2. auto. }
    destruct (Z.ltb_spec (wrap64 (- i)) 0) as [H2|H2].
    + assert (i = min_int). { destruct (Z.eq_dec i min_int); auto. rewrite wrap64_id in H2; unfold min_int, max_int in *; lia. }
      subst i. rewrite Et. rewrite <- (app_nil_r xs) in Hr.
      apply (step_back_crash s _ xs fuel 0 []); auto. change (wrap64 (wrap64 (- min_int) - 1)) with max_int. unfold zlen, max_int in *. lia.
    + assert (Hw : wrap64 (- i) = - i). { apply wrap64_id. destruct (Z.eq_dec i min_int) as [->|]; [exfalso; apply H2; reflexivity|]. unfold min_int, max_int in *; lia. }
      rewrite Hw in *. rewrite Et. rewrite wrap64_id by (unfold min_int, max_int in *; lia).
      rewrite (step_back s _ xs (Z.to_nat (- i - 1)) fuel 0 []); auto; try (unfold zlen in *; lia).
      destruct (last_or_take (Z.to_nat (zlen xs - - i)) xs (hd s)) as (x & v & E1 & E2); [unfold zlen in *; lia|].
      exists x, v. split; auto. rewrite <- E2. unfold zlen in *. do 4 f_equal. lia.
  - destruct (Z.leb_spec (zlen xs) i) as [H1|H1]; [reflexivity|].
    destruct (rep_between s [] xs Hr) as (B1 & _ & B3 & _). cbn in B1, B3.
    unfold mbind at 1, l_head. erewrite bind_ok by (apply get_next_ok; auto). rewrite B1.
    rewrite (step_fwd s _ (Z.to_nat i) fuel 0 [] xs); auto; try (unfold zlen in *; lia).
    destruct (fst_or_drop (Z.to_nat i) xs (tl s)) as (x & v & E1 & E2); [unfold zlen in *; lia|]. exists x, v. split; auto. rewrite E2. auto.
Qed.

Lemma pos_ok s v : forall ys fuel pos xs, rep s (xs ++ ys) -> (length ys <= fuel)%nat ->
  pos_loop fuel v pos (Some (fst_or ys (tl s))) s = Ok (list_pos (map snd ys) v pos) s.
Proof.
  induction ys as [|[y w] ys IH]; intros fuel pos xs Hr Hf.
  - destruct fuel; cbn; unfold mbind, l_tail; rewrite ptr_refl; auto.
  - destruct fuel as [|fuel]; cbn in Hf; [lia|]. destruct (rep_at s xs y w ys Hr) as (_ & A2 & A3 & A4 & _ & _ & A7 & _).
    cbn [pos_loop fst_or map snd list_pos]. unfold mbind at 1, l_tail. rewrite ptr_neq by auto.
    erewrite bind_ok by (apply get_val_ok; auto). rewrite A3. destruct (veq w v); [reflexivity|].
    erewrite bind_ok by (apply get_next_ok; auto). rewrite A2. apply (IH fuel (pos + 1) (xs ++ [(y, w)])); [rewrite <- app_assoc; auto|lia].
Qed.

(** ** Insertion *)
Lemma insert_before_ok v p : forall ys s xs fuel ok, rep s (xs ++ ys) -> (length ys <= fuel)%nat ->
  exists s' ys', before_loop fuel v p ok (Some (fst_or ys (tl s))) s = Ok (ok || existsb (fun x => veq x p) (map snd ys)) s' /\
    rep s' (xs ++ ys') /\ evolves s (xs ++ ys) s' (xs ++ ys') /\
    map snd ys' = concat (map (fun x => if veq x p then [v; x] else [x]) (map snd ys)).
Proof.
  induction ys as [|[y w] ys IH]; intros s xs fuel ok Hr Hf.
  - exists s, []. split; [|split; [auto|split; [apply evolves_refl|auto]]].
    destruct fuel; cbn; unfold mbind, l_tail; rewrite ptr_refl, orb_false_r; auto.
  - destruct fuel as [|fuel]; cbn in Hf; [lia|]. destruct (rep_at s xs y w ys Hr) as (_ & A2 & A3 & A4 & _ & _ & A7 & _).
    cbn [before_loop fst_or map snd existsb concat]. unfold mbind at 1, l_tail. rewrite ptr_neq by auto.
    erewrite bind_ok by (apply get_val_ok; auto). rewrite A3. destruct (veq w p) eqn:Ev.
    + destruct (rep_between s xs _ Hr) as (B1 & B2 & B3 & B4 & B5 & B6 & B7). cbn [fst_or] in *.
      destruct (exec_ins_before s _ _ v (mret true) B3 B4 B2 B7 B5 B6) as (s1 & L & E).
      erewrite bind_ok by exact E. destruct (link_rep s xs ((y, w) :: ys) v s1 Hr L) as [R1 V1].
      assert (R2 : rep s1 ((xs ++ [(nfree s, v)]) ++ (y, w) :: ys)) by (rewrite <- app_assoc; auto).
      destruct (rep_at s1 _ y w ys R2) as (_ & C2 & _ & C4 & _).
      erewrite bind_ok by (apply get_next_ok; auto). rewrite C2.
      assert (R3 : rep s1 ((xs ++ [(nfree s, v); (y, w)]) ++ ys)) by (rewrite <- app_assoc; auto).
      destruct (IH s1 _ fuel true R3) as (s' & ys' & E' & R' & V' & M'); [lia|].
      exists s', ((nfree s, v) :: (y, w) :: ys'). split; [rewrite E'; f_equal; destruct ok; auto|].
      rewrite <- !app_assoc in *. cbn in *. split; auto. split; [eapply evolves_trans; eauto|]. rewrite M'. auto.
    + unfold mbind at 1, mret at 1. erewrite bind_ok by (apply get_next_ok; auto). rewrite A2.
      assert (R3 : rep s ((xs ++ [(y, w)]) ++ ys)) by (rewrite <- app_assoc; auto).
      destruct (IH s _ fuel ok R3) as (s' & ys' & E' & R' & V' & M'); [lia|].
      exists s', ((y, w) :: ys'). split; [exact E'|]. rewrite <- !app_assoc in *. cbn in *. split; auto. split; auto. rewrite M'. auto.
Qed.
Lemma insert_after_ok v p : veq v p = false -> forall ys s xs fuel ok, rep s (xs ++ ys) -> (2 * length ys <= fuel)%nat ->
  exists s' ys', after_loop fuel v p ok (Some (fst_or ys (tl s))) s = Ok (ok || existsb (fun x => veq x p) (map snd ys)) s' /\
    rep s' (xs ++ ys') /\ evolves s (xs ++ ys) s' (xs ++ ys') /\
    map snd ys' = concat (map (fun x => if veq x p then [x; v] else [x]) (map snd ys)).
Proof.
  intros Hvp. induction ys as [|[y w] ys IH]; intros s xs fuel ok Hr Hf.
  - exists s, []. split; [|split; [auto|split; [apply evolves_refl|auto]]].
    destruct fuel; cbn; unfold mbind, l_tail; rewrite ptr_refl, orb_false_r; auto.
  - destruct fuel as [|[|fuel]]; cbn in Hf; [lia|lia|]. destruct (rep_at s xs y w ys Hr) as (_ & A2 & A3 & A4 & _ & _ & A7 & _).
    set (f1 := S fuel) in *. cbn [after_loop fst_or map snd existsb concat]. unfold mbind at 1, l_tail. rewrite ptr_neq by auto.
    erewrite bind_ok by (apply get_val_ok; auto). rewrite A3. destruct (veq w p) eqn:Ev.
    + assert (R0 : rep s ((xs ++ [(y, w)]) ++ ys)) by (rewrite <- app_assoc; auto).
      destruct (rep_between s _ _ R0) as (B1 & B2 & B3 & B4 & B5 & B6 & B7). rewrite last_or_app in *.
      destruct (exec_ins_after s _ _ v (mret true) B3 B4 B1 B7 B5 B6) as (s1 & L & E).
      erewrite bind_ok by exact E. rewrite <- (last_or_app (hd s) xs y w) in L at 1.
      destruct (link_rep s (xs ++ [(y, w)]) ys v s1 R0 L) as [R1 V1].
      assert (R2 : rep s1 (xs ++ (y, w) :: (nfree s, v) :: ys)) by (rewrite <- app_assoc in R1; auto).
      destruct (rep_at s1 _ y w _ R2) as (_ & C2 & _ & C4 & _).
      erewrite bind_ok by (apply get_next_ok; auto). rewrite C2. cbn [fst_or].
      destruct (rep_at s1 _ _ v ys R1) as (_ & D2 & D3 & D4 & _ & _ & D7 & _).
      unfold f1. cbn [after_loop]. unfold mbind at 1, l_tail. rewrite ptr_neq by auto.
      erewrite bind_ok by (apply get_val_ok; auto). rewrite D3, Hvp. unfold mbind at 1, mret at 1.
      erewrite bind_ok by (apply get_next_ok; auto). rewrite D2.
      assert (R3 : rep s1 ((xs ++ [(y, w); (nfree s, v)]) ++ ys)) by (rewrite <- app_assoc; auto).
      destruct (IH s1 _ fuel true R3) as (s' & ys' & E' & R' & V' & M'); [lia|].
      exists s', ((y, w) :: (nfree s, v) :: ys'). split; [rewrite E'; f_equal; destruct ok; auto|].
      rewrite <- !app_assoc in *. cbn in *. split; auto. split; [eapply evolves_trans; eauto|]. rewrite M'. auto.
    + unfold mbind at 1, mret at 1. erewrite bind_ok by (apply get_next_ok; auto). rewrite A2.
      assert (R3 : rep s ((xs ++ [(y, w)]) ++ ys)) by (rewrite <- app_assoc; auto).
      destruct (IH s _ f1 ok R3) as (s' & ys' & E' & R' & V' & M'); [unfold f1; lia|].
      exists s', ((y, w) :: ys'). split; [exact E'|]. rewrite <- !app_assoc in *. cbn in *. split; auto. split; auto. rewrite M'. auto.
Qed.
(** Inserting a copy of the pivot after it never ends. *)
Lemma insert_after_hangs v p : veq v p = true -> forall fuel ys s xs ok, rep s (xs ++ ys) -> existsb (fun x => veq x p) (map snd ys) = true ->
  after_loop fuel v p ok (Some (fst_or ys (tl s))) s = NoFuel.
Proof.
  intros Hvp. induction fuel as [|fuel IH]; intros ys s xs ok Hr He; (destruct ys as [|[y w] ys]; [discriminate|]);
    destruct (rep_at s xs y w ys Hr) as (_ & A2 & A3 & A4 & _ & _ & A7 & _);
    cbn [after_loop fst_or]; unfold mbind at 1, l_tail; rewrite ptr_neq by auto; [reflexivity|].
  erewrite bind_ok by (apply get_val_ok; auto). rewrite A3. cbn in He. destruct (veq w p) eqn:Ev.
  - assert (R0 : rep s ((xs ++ [(y, w)]) ++ ys)) by (rewrite <- app_assoc; auto).
    destruct (rep_between s _ _ R0) as (B1 & B2 & B3 & B4 & B5 & B6 & B7). rewrite last_or_app in *.
    destruct (exec_ins_after s _ _ v (mret true) B3 B4 B1 B7 B5 B6) as (s1 & L & E).
    erewrite bind_ok by exact E. rewrite <- (last_or_app (hd s) xs y w) in L at 1.
    destruct (link_rep s (xs ++ [(y, w)]) ys v s1 R0 L) as [R1 V1].
    assert (R2 : rep s1 (xs ++ (y, w) :: (nfree s, v) :: ys)) by (rewrite <- app_assoc in R1; auto).
    destruct (rep_at s1 _ y w _ R2) as (_ & C2 & _ & C4 & _).
    erewrite bind_ok by (apply get_next_ok; auto). rewrite C2.
    apply (IH ((nfree s, v) :: ys) s1 (xs ++ [(y, w)])); auto. cbn. rewrite Hvp. auto.
  - unfold mbind at 1, mret at 1. erewrite bind_ok by (apply get_next_ok; auto). rewrite A2.
    apply (IH ys s (xs ++ [(y, w)])); auto. rewrite <- app_assoc; auto.
Qed.

(** ** Range *)
Lemma range_ok s start : forall ys fuel i end_ xs res, rep s (xs ++ ys) -> (length ys <= fuel)%nat -> i = zlen xs -> end_ < i + zlen ys ->
  range_loop fuel i start end_ (Some (last_or (hd s) xs)) res s =
    Ok (res ++ drop (Z.to_nat (start - i)) (take (Z.to_nat (end_ + 1 - i)) (map snd ys))) s.
Proof.
  induction ys as [|[y w] ys IH]; intros fuel i end_ xs res Hr Hf Hi He.
  - unfold zlen in He. cbn in He. assert (E : Z.to_nat (end_ + 1 - i) = 0%nat) by lia. rewrite E, firstn_nil, skipn_nil, app_nil_r.
    destruct fuel; cbn [range_loop]; destruct (Z.leb_spec i end_); try lia; auto.
  - destruct fuel as [|fuel]; cbn in Hf; [lia|]. cbn [range_loop]. destruct (Z.leb_spec i end_) as [Hle|Hle].
    + destruct (rep_between s xs _ Hr) as (B1 & _ & B3 & _). cbn in B1.
      erewrite bind_ok by (apply get_next_ok; auto). rewrite B1. destruct (rep_at s xs y w ys Hr) as (_ & A2 & A3 & A4 & _).
      assert (R3 : rep s ((xs ++ [(y, w)]) ++ ys)) by (rewrite <- app_assoc; auto).
      assert (Ez : i + 1 = zlen (xs ++ [(y, w)])) by (unfold zlen in *; rewrite app_length; cbn; lia).
      assert (Ez2 : zlen ((y, w) :: ys) = zlen ys + 1) by (unfold zlen; cbn; lia).
      assert (IHa := fun r => IH fuel (i + 1) end_ (xs ++ [(y, w)]) r R3 ltac:(lia) Ez ltac:(lia)). rewrite last_or_app in IHa.
      replace (Z.to_nat (end_ + 1 - i)) with (S (Z.to_nat (end_ + 1 - (i + 1)))) by lia. cbn [map snd firstn].
      destruct (Z.leb_spec start i) as [Hs|Hs].
      * assert (E : ((x <== get_val (Some y) ;; mret (res ++ [x])) s) = Ok (res ++ [w]) s).
        { erewrite bind_ok by (apply get_val_ok; auto). rewrite A3. auto. }
        erewrite bind_ok by exact E. rewrite IHa. replace (Z.to_nat (start - i)) with 0%nat by lia.
        replace (Z.to_nat (start - (i + 1))) with 0%nat by lia. rewrite <- app_assoc. auto.
      * unfold mbind at 1, mret at 1. rewrite IHa. replace (Z.to_nat (start - i)) with (S (Z.to_nat (start - (i + 1)))) by lia. auto.
    + unfold mret. replace (Z.to_nat (end_ + 1 - i)) with 0%nat by lia. cbn. rewrite skipn_nil, app_nil_r. auto.
Qed.
Lemma m_range_ok s xs a b fuel : rep s xs -> (length xs <= fuel)%nat -> m_range fuel a b s = Ok (list_range (map snd xs) a b) s.
Proof.
  intros Hr Hf. pose proof (rep_len _ _ Hr) as HL. unfold m_range, list_range. unfold mbind at 1, l_len. rewrite HL.
  assert (Ez : zlen (map snd xs) = zlen xs) by (unfold zlen; rewrite map_length; auto). rewrite Ez.
  set (st := if a <? 0 then zlen xs + a else a). set (en := if b <? 0 then zlen xs + b else b).
  destruct (Z.ltb_spec en st); [reflexivity|]. destruct (Z.leb_spec (zlen xs) st); [reflexivity|]. destruct (Z.ltb_spec en 0); [reflexivity|].
  cbn [orb]. unfold mbind, l_head. set (en2 := if zlen xs <=? en then zlen xs - 1 else en). set (st2 := if st <? 0 then 0 else st).
  assert (H2 : 0 <= st2 /\ st2 <= en2 + 1 /\ en2 < zlen xs).
  { unfold st2, en2. destruct (Z.ltb_spec st 0), (Z.leb_spec (zlen xs) en); unfold zlen in *; lia. }
  pose proof (range_ok s st2 xs fuel 0 en2 [] [] Hr Hf eq_refl ltac:(lia)) as E. cbn [last_or] in E. rewrite E. clear E. cbn [app]. do 2 f_equal.
  replace (Z.to_nat (en2 + 1 - 0)) with (Z.to_nat st2 + Z.to_nat (en2 - st2 + 1))%nat by lia.
  replace (Z.to_nat (st2 - 0)) with (Z.to_nat st2) by lia. rewrite <- firstn_skipn_comm. auto.
Qed.

(** ** Remove *)
Lemma remove_fwd v count : forall ys s xs fuel removed, rep s (xs ++ ys) -> (length ys <= fuel)%nat ->
  exists s' ys', remove_loop fuel false v count removed (Some (fst_or ys (tl s))) s =
      Ok (removed + fst (remove_upto (map snd ys) v (count - removed))) s' /\
    rep s' (xs ++ ys') /\ evolves s (xs ++ ys) s' (xs ++ ys') /\
    map snd ys' = snd (remove_upto (map snd ys) v (count - removed)).
Proof.
  induction ys as [|[y w] ys IH]; intros s xs fuel removed Hr Hf.
  - exists s, []. split; [|split; [auto|split; [apply evolves_refl|auto]]].
    destruct fuel; cbn; unfold mbind, l_tail; rewrite ptr_refl; cbn; rewrite Z.add_0_r; auto.
  - destruct fuel as [|fuel]; cbn in Hf; [lia|]. destruct (rep_at s xs y w ys Hr) as (A1 & A2 & A3 & A4 & A5 & A6 & A7 & A8 & A9 & A10).
    cbn [remove_loop fst_or map snd remove_upto]. unfold mbind at 1, l_tail. rewrite ptr_neq by auto. cbn [negb andb].
    destruct (Z.ltb_spec removed count) as [Hc|Hc]; destruct (Z.leb_spec (count - removed) 0); try lia.
    2:{ exists s, ((y, w) :: ys). cbn. rewrite Z.add_0_r. split; [reflexivity|]. split; [auto|]. split; [apply evolves_refl|auto]. }
    erewrite bind_ok by (apply get_val_ok; auto). rewrite A3. destruct (veq w v) eqn:Ev.
    + destruct (rep_between s xs _ Hr) as (_ & _ & B3 & _).
      assert (R0 : rep s ((xs ++ [(y, w)]) ++ ys)) by (rewrite <- app_assoc; auto).
      destruct (rep_between s _ _ R0) as (_ & _ & _ & B4 & _).
      destruct (exec_unlink s _ y _ (mret (removed + 1)) B3 B4 A4 A1 A2 A10 A8 A9) as (s1 & U & E).
      erewrite bind_ok by exact E. destruct (unlink_rep s xs y w ys s1 Hr U) as [R1 V1].
      destruct (unlinked_fields _ _ _ _ U A10 y) as (F1 & _).
      rewrite decide_False in F1 by auto.
      assert (V : is_Some (cells s1 !! y)). { destruct U as (_ & _ & _ & _ & ? & ? & _ & _ & U). rewrite U, !decide_False; auto. }
      erewrite bind_ok by (apply get_next_ok; auto). rewrite F1, A2, <- (evolves_tl _ _ _ _ V1).
      destruct (IH s1 xs fuel (removed + 1) R1) as (s' & ys' & E' & R' & V' & M'); [lia|].
      replace (count - (removed + 1)) with (count - removed - 1) in * by lia.
      destruct (remove_upto (map snd ys) v (count - removed - 1)) as [k r'] eqn:Er. cbn [fst snd] in *.
      exists s', ys'. split; [rewrite E'; f_equal; lia|]. split; auto. split; [eapply evolves_trans; eauto|]. auto.
    + unfold mbind at 1, mret at 1. erewrite bind_ok by (apply get_next_ok; auto). rewrite A2.
      assert (R3 : rep s ((xs ++ [(y, w)]) ++ ys)) by (rewrite <- app_assoc; auto).
      destruct (IH s _ fuel removed R3) as (s' & ys' & E' & R' & V' & M'); [lia|].
      destruct (remove_upto (map snd ys) v (count - removed)) as [k r'] eqn:Er. cbn [fst snd] in *.
      exists s', ((y, w) :: ys'). split; [exact E'|]. rewrite <- !app_assoc in *. cbn in *. split; auto. split; auto. rewrite M'. auto.
Qed.
Lemma remove_back v count : forall xs s ys fuel removed, rep s (xs ++ ys) -> (length xs <= fuel)%nat ->
  exists s' xs', remove_loop fuel true v count removed (Some (last_or (hd s) xs)) s =
      Ok (removed + fst (remove_upto (rev (map snd xs)) v (count - removed))) s' /\
    rep s' (xs' ++ ys) /\ evolves s (xs ++ ys) s' (xs' ++ ys) /\
    map snd xs' = rev (snd (remove_upto (rev (map snd xs)) v (count - removed))).
Proof.
  induction xs as [|[y w] xs IH] using rev_ind; intros s ys fuel removed Hr Hf.
  - exists s, []. split; [|split; [auto|split; [apply evolves_refl|auto]]].
    destruct fuel; cbn; unfold mbind, l_head; rewrite ptr_refl; cbn; rewrite Z.add_0_r; auto.
  - rewrite app_length in Hf. destruct fuel as [|fuel]; cbn in Hf; [lia|].
    assert (R0 : rep s (xs ++ (y, w) :: ys)) by (rewrite <- app_assoc in Hr; auto).
    destruct (rep_at s xs y w ys R0) as (A1 & A2 & A3 & A4 & A5 & A6 & A7 & A8 & A9 & A10).
    rewrite last_or_app, map_app, rev_app_distr. cbn [remove_loop map snd rev app remove_upto]. unfold mbind at 1, l_head.
    rewrite ptr_neq by auto. cbn [negb andb].
    destruct (Z.ltb_spec removed count) as [Hc|Hc]; destruct (Z.leb_spec (count - removed) 0); try lia.
    2:{ exists s, (xs ++ [(y, w)]). cbn. rewrite Z.add_0_r, rev_involutive. split; [reflexivity|]. split; [auto|].
        split; [apply evolves_refl|rewrite map_app; auto]. }
    erewrite bind_ok by (apply get_val_ok; auto). rewrite A3. destruct (veq w v) eqn:Ev.
    + destruct (rep_between s xs _ R0) as (_ & _ & B3 & _). destruct (rep_between s _ _ Hr) as (_ & _ & _ & B4 & _).
      destruct (exec_unlink s _ y _ (mret (removed + 1)) B3 B4 A4 A1 A2 A10 A8 A9) as (s1 & U & E).
      erewrite bind_ok by exact E. destruct (unlink_rep s xs y w ys s1 R0 U) as [R1 V1].
      destruct (unlinked_fields _ _ _ _ U A10 y) as (_ & F1 & _).
      rewrite decide_False in F1 by auto.
      assert (V : is_Some (cells s1 !! y)). { destruct U as (_ & _ & _ & _ & ? & ? & _ & _ & U). rewrite U, !decide_False; auto. }
      erewrite bind_ok by (apply get_prev_ok; auto). rewrite F1, A1, <- (evolves_hd _ _ _ _ V1).
      destruct (IH s1 ys fuel (removed + 1) R1) as (s' & xs' & E' & R' & V' & M'); [lia|].
      replace (count - (removed + 1)) with (count - removed - 1) in * by lia.
      destruct (remove_upto (rev (map snd xs)) v (count - removed - 1)) as [k r'] eqn:Er. cbn [fst snd] in *.
      exists s', xs'. split; [rewrite E'; f_equal; lia|]. split; auto. rewrite <- app_assoc. split; [eapply evolves_trans; eauto|]. auto.
    + unfold mbind at 1, mret at 1. erewrite bind_ok by (apply get_prev_ok; auto). rewrite A1.
      destruct (IH s _ fuel removed R0) as (s' & xs' & E' & R' & V' & M'); [lia|].
      destruct (remove_upto (rev (map snd xs)) v (count - removed)) as [k r'] eqn:Er. cbn [fst snd rev] in *.
      exists s', (xs' ++ [(y, w)]). split; [exact E'|]. rewrite <- !app_assoc in *. cbn in *. split; auto. split; auto.
      rewrite map_app, M'. auto.
Qed.
Lemma m_remove_ok s xs v n fuel : rep s xs -> (length xs <= fuel)%nat ->
  exists s' xs', m_remove fuel v n s = Ok (fst (list_rem (map snd xs) v n)) s' /\ rep s' xs' /\ evolves s xs s' xs' /\
    map snd xs' = snd (list_rem (map snd xs) v n).
Proof.
  intros Hr Hf. pose proof (rep_len _ _ Hr) as HL. unfold m_remove, list_rem. unfold mbind at 1, l_len. rewrite HL.
  assert (Ez : zlen (map snd xs) = zlen xs) by (unfold zlen; rewrite map_length; auto). rewrite Ez.
  destruct (Z.eqb_spec (zlen xs) 0) as [H0|H0].
  { exists s, xs. split; [reflexivity|]. split; auto. split; [apply evolves_refl|auto]. }
  cbv zeta. destruct (Z.ltb_spec 0 (if n =? 0 then zlen xs else n)) as [Hp|Hp].
  - unfold mbind, l_head. destruct (rep_between s [] xs Hr) as (B1 & _ & B3 & _). cbn in B1, B3.
    rewrite get_next_ok, B1 by auto.
    destruct (remove_fwd v (if n =? 0 then zlen xs else n) xs s [] fuel 0 Hr Hf) as (s' & ys' & E & R & V & Mp).
    rewrite Z.sub_0_r in *. exists s', ys'. split; [exact E|]. auto.
  - unfold mbind, l_tail. pose proof Hr as Hr'. rewrite <- (app_nil_r xs) in Hr'.
    destruct (rep_between s xs [] Hr') as (_ & B2 & _ & B4 & _). cbn in B2, B4. rewrite get_prev_ok, B2 by auto.
    destruct (remove_back v (wrap64 (- (if n =? 0 then zlen xs else n))) xs s [] fuel 0 Hr' Hf) as (s' & ys' & E & R & V & Mp).
    rewrite Z.sub_0_r, !app_nil_r in *. destruct (remove_upto (rev (map snd xs)) v _) as [k r]. cbn in *.
    exists s', ys'. split; [exact E|]. auto.
Qed.
