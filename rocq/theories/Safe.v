(** A goroutine whose program cannot panic, given what it knows of the keys it has locked, never panics, whatever the others do. *)
From Verif Require Export Calm ConcProofs.

Section WithParams.
Context {P : Setup}.
Notation known := (gmap bytes (option value)).
(** As [calm], for a goroutine that holds the locks at the positions [L] exclusively and knows the entries [K] under them. *)
Inductive safe {A} (c h : bool) : list N -> known -> prog A -> Prop :=
| sf_Ret L K a : safe c h L K (Ret a)
| sf_Crash L K : c = true -> safe c h L K Crash
| sf_Hang L K : h = true -> safe c h L K Hang
| sf_Now L K k : (forall t, safe c h L K (k t)) -> safe c h L K (Now k)
| sf_Range L K l k : (forall x, Permutation x l -> safe c h L K (k x)) -> safe c h L K (Range l k)
| sf_DGet L K key k : (forall x, (forall y, K !! key = Some y -> x = y) ->
      safe c h L (if decide (lockpos key ∈ L) then <[key := x]> K else K) (k x)) -> safe c h L K (DGet key k)
| sf_DSet L K key v k : (forall b, safe c h L (if decide (lockpos key ∈ L) then <[key := Some v]> K else K) (k b)) -> safe c h L K (DSet key v k)
| sf_DMut L K key v k : safe c h L (alter (fun y => match y with Some _ => Some v | None => None end) key K) k -> safe c h L K (DMut key v k)
| sf_DDel L K key k : (forall b, safe c h L (if decide (lockpos key ∈ L) then <[key := None]> K else K) (k b)) -> safe c h L K (DDel key k)
| sf_DSeg L K i k : (forall x, safe c h L K (k x)) -> safe c h L K (DSeg i k)
| sf_CntLoad L K k : (forall x, safe c h L K (k x)) -> safe c h L K (CntLoad k)
| sf_CntStore L K n k : safe c h L K k -> safe c h L K (CntStore n k)
| sf_EGet L K key k : (forall x, safe c h L K (k x)) -> safe c h L K (EGet key k)
| sf_ESet L K key t k : safe c h L K k -> safe c h L K (ESet key t k)
| sf_EDel L K key k : (forall x, safe c h L K (k x)) -> safe c h L K (EDel key k)
| sf_Acq L K pos m k : safe c h (match m with MW => pos :: L | MR => L end) K k -> safe c h L K (Acq pos m k)
| sf_Rel L K pos m k : safe c h [] ∅ k -> safe c h L K (Rel pos m k).
Lemma calm_safe {A} c h (p : prog A) : calm c h p -> forall L K, safe c h L K p.
Proof. induction 1; intros; constructor; auto. Qed.
Lemma safe_loose {A} (c h c' h' : bool) L K (p : prog A) : (c = true -> c' = true) -> (h = true -> h' = true) -> safe c h L K p -> safe c' h' L K p.
Proof. intros H1 H2 H. induction H; constructor; auto. Qed.
(** Sequences: of a program that is [calm]; in general the rest must do with nothing known. *)
Lemma safe_bind_calm {A C} c h (p : prog A) (f : A -> prog C) : calm c h p -> (forall L K a, safe c h L K (f a)) -> forall L K, safe c h L K (pbind p f).
Proof. intros H Hf. induction H; intros; cbn; auto; constructor; auto. Qed.
Lemma safe_bind {A C} c h L K (p : prog A) (f : A -> prog C) : safe c h L K p -> (forall L K a, safe c h L K (f a)) -> safe c h L K (pbind p f).
Proof. intros H Hf. induction H; cbn; auto; constructor; auto. Qed.

(** ** Preservation *)
Definition knows {A} (fl : bool * bool) (h : lstate) (d : db) (t : thread A) : Prop :=
  exists L K, safe fl.1 fl.2 L K (tcode t) /\ (forall p, p ∈ L -> held MW p h = 1%nat) /\ (forall key y, K !! key = Some y -> lockpos key ∈ L /\ dict d !! key = y).
Definition all_safe {A} (fl : nat -> bool * bool) (c : conf A) : Prop :=
  exists hs, good true true c hs /\ forall i t h, ths c !! i = Some t -> hs !! i = Some h -> knows (fl i) h (cdb c) t.
Lemma prim_dict {A} T d (p : prog A) d' p' key : prim T d p d' p' -> dict d' !! key = dict d !! key \/ writes_value key (mkT p false).
Proof.
  intros H. destruct H; auto; unfold writes_value; cbn; destruct (decide (key0 = key)) as [->|Hn]; auto; left.
  - apply lookup_insert_ne; auto.
  - apply lookup_alter_ne; auto.
  - apply lookup_delete_ne; auto.
Qed.
Lemma knows_prim {A} fl T h d (p : prog A) d' p' : knows fl h d (mkT p false) -> prim T d p d' p' -> knows fl h d' (mkT p' false).
Proof.
  intros (L & K & S & HL & HK) Hp. cbn in S. unfold knows. cbn.
  destruct Hp; inversion S as [| | | | |? ? ? ? HS|? ? ? ? ? HS|? ? ? ? ? HS|? ? ? ? HS| | | | | | | |]; subst; try (eexists L, K; split; [solve [eauto]|split; [exact HL|exact HK]]).
  - eexists L, _. split; [apply HS; intros y Hy; apply (HK _ _ Hy)|]. split; [exact HL|]. intros key' y Hy. destruct (decide (lockpos key ∈ L)) as [Hi|_]; [|auto].
    destruct (decide (key = key')) as [<-|Hn]; [rewrite lookup_insert in Hy; injection Hy as <-; auto|]. rewrite lookup_insert_ne in Hy by auto. auto.
  - eexists L, _. split; [apply HS|]. split; [exact HL|]. intros key' y Hy. cbn. destruct (decide (lockpos key ∈ L)) as [Hi|Hi].
    + destruct (decide (key = key')) as [<-|Hn]; [rewrite lookup_insert in Hy; rewrite lookup_insert; injection Hy as <-; auto|]. rewrite lookup_insert_ne in Hy by auto; rewrite lookup_insert_ne by auto. auto.
    + destruct (HK _ _ Hy) as [H1 H2]. rewrite lookup_insert_ne by (intros ->; auto). auto.
  - eexists L, _. split; [exact HS|]. split; [exact HL|]. intros key' y Hy. cbn. destruct (decide (key = key')) as [<-|Hn].
    + rewrite lookup_alter in Hy. rewrite lookup_alter. destruct (K !! key) as [y0|] eqn:E; [|discriminate]. cbn in Hy. injection Hy as <-. destruct (HK _ _ E) as [H1 <-]. split; [exact H1|].
      destruct (dict d !! key); reflexivity.
    + rewrite lookup_alter_ne in Hy by auto; rewrite lookup_alter_ne by auto. auto.
  - eexists L, _. split; [apply HS|]. split; [exact HL|]. intros key' y Hy. cbn. destruct (decide (lockpos key ∈ L)) as [Hi|Hi].
    + destruct (decide (key = key')) as [<-|Hn]; [rewrite lookup_insert in Hy; rewrite lookup_delete; injection Hy as <-; auto|]. rewrite lookup_insert_ne in Hy by auto. rewrite lookup_delete_ne by auto. auto.
    + destruct (HK _ _ Hy) as [H1 H2]. rewrite lookup_delete_ne by (intros ->; auto). auto.
Qed.
Lemma knows_other {A} fl h d d' (t : thread A) : knows fl h d t -> (forall key, held MW (lockpos key) h = 1%nat -> dict d' !! key = dict d !! key) -> knows fl h d' t.
Proof. intros (L & K & S & HL & HK) E. exists L, K. split; [exact S|]. split; [exact HL|]. intros key y Hy. destruct (HK _ _ Hy) as [H1 H2]. split; auto. rewrite E; auto. Qed.
Lemma upd_cases {X} (l : list X) i x j y : <[i := x]> l !! j = Some y -> (i = j /\ y = x) \/ (i <> j /\ l !! j = Some y).
Proof. intros H. apply list_lookup_insert_Some in H as [(-> & <- & _)|[? ?]]; auto. Qed.
Lemma all_safe_step {A} fl T (c c' : conf A) : all_safe fl c -> cstep T c c' -> all_safe fl c'.
Proof.
  intros (hs & G & H) St. destruct St as [d L ts i p d' p' Hi Hp|d L ts i pos k n Hi HL|d L ts i pos k n Hi HL|d L ts i pos k Hi HL|d L ts i pos k n b Hi HL|d L ts i pos k n b Hi HL]; cbn [ths cdb] in H.
  - exists hs. split; [eapply good_prim; eauto|]. cbn. intros j t h Ht Hh. apply upd_cases in Ht as [[<- ->]|[Hn Ht]]; [eapply knows_prim; eauto|].
    eapply knows_other; [eauto|]. intros key Hk. destruct (prim_dict _ _ _ _ _ key Hp) as [E|W]; auto. exfalso.
    destruct (get_h _ _ _ _ _ _ G Hi) as (h' & Hh' & W').
    refine (exclusive _ _ _ _ j i h h' MW _ G _ Hh Hh' Hk _); [congruence|]. eapply write_held; eauto.
  - destruct (get_h _ _ _ _ i _ G Hi) as (h & Hh & W1 & W2 & W3). cbn in W1. destruct (wf_inv_acq _ _ _ _ _ _ _ W1) as (h1 & Hl & Hw).
    exists (<[i := h1]> hs). split; [eapply good_lock; eauto; cbn; eauto|]. cbn. intros j t h' Ht Hh'. pose proof (lstep_held _ _ _ _ _ Hl W2) as HH. cbn in HH.
    apply upd_cases in Ht as [[<- ->]|[Hn Ht]]; apply upd_cases in Hh' as [[E ->]|[Hn' Hh']]; try congruence; [|eauto].
    destruct (H _ _ _ Hi Hh) as (L0 & K & S & HL0 & HK). cbn in S. inversion S; subst. exists L0, K. split; [auto|]. split; [|auto]. intros p Hp. rewrite HH, (HL0 p Hp). case_decide; [destruct H0; discriminate|lia].
  - exists hs. split; [eapply good_announce; eauto|]. cbn. intros j t h Ht Hh. apply upd_cases in Ht as [[<- ->]|[Hn Ht]]; [|eauto]. exact (H _ _ _ Hi Hh).
  - destruct (get_h _ _ _ _ i _ G Hi) as (h & Hh & W1 & W2 & W3). cbn in W1. destruct (wf_inv_acq _ _ _ _ _ _ _ W1) as (h1 & Hl & Hw).
    exists (<[i := h1]> hs). split; [eapply good_lock; eauto; cbn; eauto|]. cbn. intros j t h' Ht Hh'. pose proof (lstep_held _ _ _ _ _ Hl W2) as HH. cbn in HH.
    apply upd_cases in Ht as [[<- ->]|[Hn Ht]]; apply upd_cases in Hh' as [[E ->]|[Hn' Hh']]; try congruence; [|eauto].
    destruct (H _ _ _ Hi Hh) as (L0 & K & S & HL0 & HK). cbn in S. inversion S; subst. exists (pos :: L0), K. split; [auto|]. split.
    + intros p Hp. assert (Hge : (1 <= held MW p h1)%nat).
      { rewrite HH. apply elem_of_cons in Hp as [->|Hp]; [rewrite decide_True by auto; lia|rewrite (HL0 p Hp); lia]. }
      destruct h1; cbn in *; try lia; case_decide; lia.
    + intros key y Hy. destruct (HK _ _ Hy). split; auto. right. auto.
  - destruct (get_h _ _ _ _ i _ G Hi) as (h & Hh & W1 & W2 & W3). cbn in W1. destruct (wf_inv_rel _ _ _ _ _ _ _ W1) as (h1 & Hl & Hw).
    exists (<[i := h1]> hs). split; [eapply good_unlock; eauto; cbn; eauto|]. cbn. intros j t h' Ht Hh'.
    apply upd_cases in Ht as [[<- ->]|[Hn Ht]]; apply upd_cases in Hh' as [[E ->]|[Hn' Hh']]; try congruence; [|eauto].
    destruct (H _ _ _ Hi Hh) as (L0 & K & S & HL0 & HK). cbn in S. inversion S; subst. exists [], ∅. split; [auto|]. split; [intros p Hp; inversion Hp|]. intros key y Hy. rewrite lookup_empty in Hy. discriminate.
  - destruct (get_h _ _ _ _ i _ G Hi) as (h & Hh & W1 & W2 & W3). cbn in W1. destruct (wf_inv_rel _ _ _ _ _ _ _ W1) as (h1 & Hl & Hw).
    exists (<[i := h1]> hs). split; [eapply good_unlock; eauto; cbn; eauto|]. cbn. intros j t h' Ht Hh'.
    apply upd_cases in Ht as [[<- ->]|[Hn Ht]]; apply upd_cases in Hh' as [[E ->]|[Hn' Hh']]; try congruence; [|eauto].
    destruct (H _ _ _ Hi Hh) as (L0 & K & S & HL0 & HK). cbn in S. inversion S; subst. exists [], ∅. split; [auto|]. split; [intros p Hp; inversion Hp|]. intros key y Hy. rewrite lookup_empty in Hy. discriminate.
Qed.
Lemma all_safe_at {A} fl (c : conf A) i t : all_safe fl c -> ths c !! i = Some t -> (tcode t = Crash -> (fl i).1 = true) /\ (tcode t = Hang -> (fl i).2 = true).
Proof.
  intros (hs & G & H) Hi. destruct (get_h _ _ _ _ _ _ G Hi) as (h & Hh & _). destruct (H _ _ _ Hi Hh) as (L & K & S & _). split; intros E; rewrite E in S; inversion S; auto.
Qed.
Lemma knows_fresh {A} fl h d b (p : prog A) : safe fl.1 fl.2 [] ∅ p -> knows fl h d (mkT p b).
Proof. intros S. exists [], ∅. split; [exact S|]. split; [intros q Hq; inversion Hq|]. intros key y Hy. rewrite lookup_empty in Hy. discriminate. Qed.
Lemma all_safe_arrive {A} fl (c : conf A) i x b p : all_safe fl c -> ths c !! i = Some (mkT (Ret x) b) -> Wf.wf (fun _ => True) true true Idle Idle p ->
  safe (fl i).1 (fl i).2 [] ∅ p -> all_safe fl (mkC (cdb c) (lk c) (<[i := mkT p false]> (ths c))).
Proof.
  intros (hs & G & H) Hi Hp S. exists hs. split.
  - destruct (get_h _ _ _ _ _ _ G Hi) as (h & Hh & W & _ & Ha). cbn in W, Ha. inversion W; subst.
    assert (b = false) as -> by (destruct b; auto; destruct (Ha eq_refl) as (? & ? & ?); discriminate).
    destruct G as [G1 G2 G3 G4 G5]. constructor; cbn; auto.
    + eapply forall2_upd; eauto. split; auto. split; cbn; auto. discriminate.
    + intros q. rewrite G4. pose proof (total_insert (wants q) (ths c) i _ (mkT p false) Hi) as E. rewrite !wants_false in E. lia.
  - cbn. intros j t h Ht Hh. apply upd_cases in Ht as [[<- ->]|[Hn Ht]]; [|eauto]. apply knows_fresh. auto.
Qed.
Lemma all_safe_start {A} fl d (ps : list (prog A)) : Forall (Wf.wf (fun _ => True) true true Idle Idle) ps ->
  (forall i p, ps !! i = Some p -> safe (fl i).1 (fl i).2 [] ∅ p) -> all_safe fl (start d ps).
Proof.
  intros HW HS. eexists. split; [apply good_start; exact HW|]. intros i t h Ht _. cbn in Ht. rewrite list_lookup_fmap in Ht.
  destruct (ps !! i) as [p|] eqn:E; [|discriminate]. injection Ht as <-. apply knows_fresh. auto.
Qed.
End WithParams.
