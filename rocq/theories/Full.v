(** What a goroutine may rely on, and must restore, where no container is empty except under an exclusive lock. *)
From Verif Require Export SpecEmpty SafeCmds.

Section WithParams.
Context {P : Setup}.
Notation known := (gmap bytes (option value)).
Definition solid (x : option value) : Prop := forall v, x = Some v -> hollow v = false.
(** No entry known is an empty container. *)
Definition settled (K : known) : Prop := forall key x, K !! key = Some x -> solid x.
Definition learn (L : list N) (K : known) (key : bytes) (x : option value) : known := if decide (lockpos key ∈ L) then <[key := x]> K else K.
(** For a goroutine that holds the locks at the positions [L] and knows the entries [K] under them, [Q] being required where it ends. *)
Fixpoint full {A : Type} (c : bool) (Q : list N -> known -> A -> Prop) (L : list N) (K : known) (p : prog A) : Prop :=
  match p with
  | Ret a => Q L K a
  | Crash => c = true
  | Hang => True
  | Now k => forall t, full c Q L K (k t)
  | Range l k => forall x, Permutation x l -> full c Q L K (k x)
  | DGet key k => forall x, (forall y, K !! key = Some y -> x = y) -> (lockpos key ∈ L -> K !! key = None -> solid x) -> full c Q L (learn L K key x) (k x)
  | DSet key v k => (lockpos key ∈ L \/ hollow v = false) /\ forall b, full c Q L (learn L K key (Some v)) (k b)
  | DMut key v k => (is_Some (K !! key) \/ hollow v = false) /\ full c Q L (alter (fun y => match y with Some _ => Some v | None => None end) key K) k
  | DDel key k => forall b, full c Q L (learn L K key None) (k b)
  | DSeg i k => forall x, full c Q L K (k x)
  | CntLoad k => forall x, full c Q L K (k x)
  | CntStore n k => full c Q L K k
  | EGet key k => forall x, full c Q L K (k x)
  | ESet key t k => full c Q L K k
  | EDel key k => forall x, full c Q L K (k x)
  | Acq pos m k => full c Q (pos :: L) K k
  | Rel pos m k => settled K /\ full c Q [] ∅ k
  end.
Lemma full_bind {A C : Type} (c : bool) (Q : list N -> known -> A -> Prop) (R : list N -> known -> C -> Prop) (p : prog A) (f : A -> prog C) : forall (L : list N) (K : known),
  full c Q L K p -> (forall L K a, Q L K a -> full c R L K (f a)) -> full c R L K (pbind p f).
Proof. induction p; cbn [full pbind]; intros L K HF Hf; intuition eauto. Qed.
Lemma full_post {A : Type} (c : bool) (Q R : list N -> known -> A -> Prop) (p : prog A) : forall (L : list N) (K : known), full c Q L K p -> (forall L K a, Q L K a -> R L K a) -> full c R L K p.
Proof. induction p; cbn [full]; intros L K HF Hf; intuition eauto. Qed.
Lemma settled_empty : settled ∅. Proof. intros k x Hx. rewrite lookup_empty in Hx. discriminate. Qed.
Lemma settled_set K key x : settled K -> solid x -> settled (<[key := x]> K).
Proof. intros HK Hx k y Hy. destruct (decide (key = k)) as [<-|Hn]; [rewrite lookup_insert in Hy; injection Hy as <-; exact Hx|rewrite lookup_insert_ne in Hy by auto; eauto]. Qed.
Lemma solid_none : solid None. Proof. intros v Hv. discriminate. Qed.
Lemma solid_some v : hollow v = false -> solid (Some v). Proof. intros H w [= <-]. exact H. Qed.
Lemma settled_learn L K key x : settled K -> solid x -> settled (learn L K key x).
Proof. intros. unfold learn. destruct (decide _); auto using settled_set. Qed.
(** What another judgement excludes. *)
Lemma full_safe {A : Type} (Q : list N -> known -> A -> Prop) (h : bool) L K (p : prog A) : safe false h L K p -> scoped L K -> forall L' K', (forall q, q ∈ L -> q ∈ L') -> less K K' -> full true Q L' K' p -> full false Q L' K' p.
Proof.
  induction 1 as [| | | | |L K key k H IH|L K key v k H IH|L K key v k H IH|L K key k H IH| | | | | | |L K pos m k H IH|L K pos m k H IH]; intros Hs L' K' HL HK HF; cbn [full] in *; eauto.
  - intros x H1 H2. eapply IH; [intros y Hy; apply H1; auto|apply scoped_set; exact Hs|exact HL|apply less_set; auto|auto].
  - destruct HF as [H1 H2]. split; [exact H1|]. intros b. eapply IH; [apply scoped_set; exact Hs|exact HL|apply less_set; auto|auto].
  - destruct HF as [H1 H2]. split; [exact H1|]. eapply IH; [|exact HL| |exact H2].
    + intros q y Hy. destruct (decide (key = q)) as [<-|Hn]; [|rewrite lookup_alter_ne in Hy by auto; eauto]. rewrite lookup_alter in Hy. destruct (K !! key) eqn:E; [|discriminate]. eauto.
    + intros q y Hy. destruct (decide (key = q)) as [<-|Hn]; [|rewrite lookup_alter_ne in * by auto; auto]. rewrite lookup_alter in *. destruct (K !! key) eqn:E; [|discriminate]. rewrite (HK _ _ E). exact Hy.
  - intros b. eapply IH; [apply scoped_set; exact Hs|exact HL|apply less_set; auto|auto].
  - eapply IH; [|intros q Hq|exact HK|exact HF].
    + intros q y Hy. apply Hs in Hy. destruct m; [exact Hy|right; exact Hy].
    + destruct m; [right; auto|]. apply elem_of_cons in Hq as [->|Hq]; [left|right; auto].
  - destruct HF as [H1 H2]. split; [exact H1|]. eapply IH; [intros q y Hy; rewrite lookup_empty in Hy; discriminate|auto|intros q y Hy; exact Hy|exact H2].
Qed.

(** ** Preservation *)
Definition has {A : Type} (c : bool) (L : list N) (K : known) (h : lstate) (d : db) (t : thread A) : Prop :=
  full c (fun _ K _ => settled K) L K (tcode t) /\ (forall p, p ∈ L -> exists m, held m p h = 1%nat) /\ (forall key y, K !! key = Some y -> lockpos key ∈ L /\ dict d !! key = y).
(** Every empty container is known to a goroutine that holds its key exclusively. *)
Definition owned {A : Type} (c : conf A) (hs : list lstate) (Ks : nat -> known) : Prop :=
  forall key v, dict (cdb c) !! key = Some v -> hollow v = true -> exists i h, hs !! i = Some h /\ held MW (lockpos key) h = 1%nat /\ Ks i !! key = Some (Some v).
Definition all_full {A : Type} (fl : nat -> bool) (c : conf A) : Prop :=
  exists hs Ls Ks, good true true c hs /\ (forall i t h, ths c !! i = Some t -> hs !! i = Some h -> has (fl i) (Ls i) (Ks i) h (cdb c) t) /\ owned c hs Ks.
Definition nupd {X} (f : nat -> X) (i : nat) (x : X) : nat -> X := fun j => if (j =? i)%nat then x else f j.
Lemma nupd_eq {X} (f : nat -> X) i x : nupd f i x i = x. Proof. unfold nupd. rewrite Nat.eqb_refl. reflexivity. Qed.
Lemma nupd_ne {X} (f : nat -> X) i j x : i <> j -> nupd f i x j = f j. Proof. unfold nupd. intros H. destruct (Nat.eqb_spec j i); congruence. Qed.

Lemma has_other {A : Type} c L K h d d' (t : thread A) : has c L K h d t -> (forall key m, held m (lockpos key) h = 1%nat -> dict d' !! key = dict d !! key) -> has c L K h d' t.
Proof.
  intros (S & HL & HK) E. split; [exact S|]. split; [exact HL|]. intros key y Hy. destruct (HK _ _ Hy) as [H1 H2]. split; auto. destruct (HL _ H1) as [m Hm]. rewrite (E key m Hm). exact H2.
Qed.
(** A step of the goroutine itself: what it then knows, and what became of each entry. *)
Lemma has_prim {A : Type} c T L K h d (p : prog A) d' p' : has c L K h d (mkT p false) -> prim T d p d' p' ->
  (forall key v, lockpos key ∈ L -> K !! key = None -> dict d !! key = Some v -> hollow v = false) ->
  exists K', has c L K' h d' (mkT p' false) /\
    (forall key v, dict d' !! key = Some v -> hollow v = true -> (K' !! key = Some (Some v) /\ writes_value key (mkT p false)) \/
       dict d !! key = Some v /\ (K !! key = Some (Some v) -> K' !! key = Some (Some v))).
Proof.
  intros (S & HL & HK) Hp HN. cbn [tcode] in S. unfold has. cbn [tcode].
  destruct Hp; cbn [full] in S; try (exists K; split; [split; [solve [eauto]|split; [exact HL|exact HK]]|cbn; intros key' v' H1 H2; right; solve [auto]]).
  - exists (learn L K key (dict d !! key)). split; [split; [|split; [exact HL|]]|].
    + apply S; [intros y Hy; apply (HK _ _ Hy)|]. intros Hi HK0 v Hv. eauto.
    + intros key' y Hy. unfold learn in Hy. destruct (decide (lockpos key ∈ L)) as [Hi|_]; [|auto].
      destruct (decide (key = key')) as [<-|Hn]; [rewrite lookup_insert in Hy; injection Hy as <-; auto|]. rewrite lookup_insert_ne in Hy by auto. auto.
    + intros key' v H1 H2. right. split; [exact H1|]. intros H3. unfold learn. destruct (decide (lockpos key ∈ L)) as [Hi|_]; [|auto].
      destruct (decide (key = key')) as [<-|Hn]; [rewrite lookup_insert; congruence|rewrite lookup_insert_ne by auto; exact H3].
  - destruct S as [Hv S]. exists (learn L K key (Some v)). split; [split; [apply S|split; [exact HL|]]|]; cbn.
    + intros key' y Hy. unfold learn in Hy. destruct (decide (lockpos key ∈ L)) as [Hi|Hi].
      * destruct (decide (key = key')) as [<-|Hn]; [rewrite lookup_insert in Hy; rewrite lookup_insert; injection Hy as <-; auto|]. rewrite lookup_insert_ne in Hy by auto; rewrite lookup_insert_ne by auto. auto.
      * destruct (HK _ _ Hy) as [H1 H2]. rewrite lookup_insert_ne by (intros ->; auto). auto.
    + intros key' v' H1 H2. destruct (decide (key = key')) as [<-|Hn].
      * rewrite lookup_insert in H1. injection H1 as <-. destruct Hv as [Hv|Hv]; [|congruence]. left. unfold learn. rewrite decide_True by auto. rewrite lookup_insert. auto.
      * rewrite lookup_insert_ne in H1 by auto. right. split; [exact H1|]. intros H3. unfold learn. destruct (decide (lockpos key ∈ L)); [rewrite lookup_insert_ne by auto|]; exact H3.
  - destruct S as [Hv S]. eexists. split; [split; [exact S|split; [exact HL|]]|]; cbn.
    + intros key' y Hy. destruct (decide (key = key')) as [<-|Hn].
      * rewrite lookup_alter in Hy. rewrite lookup_alter. destruct (K !! key) as [y0|] eqn:E; [|discriminate]. cbn in Hy. injection Hy as <-. destruct (HK _ _ E) as [H1 <-]. split; [exact H1|].
        destruct (dict d !! key); reflexivity.
      * rewrite lookup_alter_ne in Hy by auto; rewrite lookup_alter_ne by auto. auto.
    + intros key' v' H1 H2. destruct (decide (key = key')) as [<-|Hn].
      * rewrite lookup_alter in H1. destruct (dict d !! key) as [w|] eqn:E; [|discriminate]. cbn in H1. injection H1 as <-. destruct Hv as [[y Hy]|Hv]; [|congruence]. left. split; auto.
        rewrite lookup_alter, Hy. destruct (HK _ _ Hy) as [_ H3]. rewrite E in H3. subst y. reflexivity.
      * rewrite lookup_alter_ne in H1 by auto. right. split; [exact H1|]. intros H3. rewrite lookup_alter_ne by auto. exact H3.
  - exists (learn L K key None). split; [split; [apply S|split; [exact HL|]]|]; cbn.
    + intros key' y Hy. unfold learn in Hy. destruct (decide (lockpos key ∈ L)) as [Hi|Hi].
      * destruct (decide (key = key')) as [<-|Hn]; [rewrite lookup_insert in Hy; rewrite lookup_delete; injection Hy as <-; auto|]. rewrite lookup_insert_ne in Hy by auto. rewrite lookup_delete_ne by auto. auto.
      * destruct (HK _ _ Hy) as [H1 H2]. rewrite lookup_delete_ne by (intros ->; auto). auto.
    + intros key' v' H1 H2. destruct (decide (key = key')) as [<-|Hn]; [rewrite lookup_delete in H1; discriminate|]. rewrite lookup_delete_ne in H1 by auto. right. split; [exact H1|].
      intros H3. unfold learn. destruct (decide (lockpos key ∈ L)); [rewrite lookup_insert_ne by auto|]; exact H3.
Qed.
Lemma held_bound m p h n : held m p h = n -> (n = 0 \/ n = 1)%nat.
Proof. intros <-. destruct h; cbn; repeat (case_decide || destruct m); auto. Qed.
Lemma all_full_step {A : Type} fl T (c c' : conf A) : all_full fl c -> cstep T c c' -> all_full fl c'.
Proof.
  intros (hs & Ls & Ks & G & H & O) St. destruct St as [d L ts i p d' p' Hi Hp|d L ts i pos k n Hi HL|d L ts i pos k n Hi HL|d L ts i pos k Hi HL|d L ts i pos k n b Hi HL|d L ts i pos k n b Hi HL]; cbn [ths cdb] in H.
  - destruct (get_h _ _ _ _ _ _ G Hi) as (h & Hh & W).
    assert (HN : forall key v, lockpos key ∈ Ls i -> Ks i !! key = None -> dict d !! key = Some v -> hollow v = false).
    { intros key v Hin HK Hv. destruct (hollow v) eqn:E; [|reflexivity]. exfalso. destruct (O key v Hv E) as (j & hj & Hj & Hm & HKj).
      destruct (decide (j = i)) as [->|Hn]; [congruence|]. destruct (H _ _ _ Hi Hh) as (_ & HL & _). destruct (HL _ Hin) as [m Hm'].
      exact (exclusive _ _ _ _ j i hj h m (lockpos key) G Hn Hj Hh Hm Hm'). }
    destruct (has_prim _ _ _ _ _ _ _ _ _ (H _ _ _ Hi Hh) Hp HN) as (K' & HA & HB).
    exists hs, Ls, (nupd Ks i K'). split; [eapply good_prim; eauto|]. cbn. split.
    + intros j t h' Ht Hh'. apply upd_cases in Ht as [[<- ->]|[Hn Ht]].
      * rewrite nupd_eq. assert (h' = h) as -> by congruence. exact HA.
      * rewrite nupd_ne by auto. eapply has_other; [eauto|]. intros key m Hk. destruct (prim_dict _ _ _ _ _ key Hp) as [E|W']; auto. exfalso.
        refine (exclusive _ _ _ _ i j h h' m (lockpos key) G Hn Hh Hh' _ Hk). eapply write_held; eauto.
    + intros key v Hv E. cbn in Hv. destruct (HB key v Hv E) as [[H1 H2]|[H1 H2]].
      * exists i, h. rewrite nupd_eq. split; [exact Hh|]. split; [eapply write_held; eauto|exact H1].
      * destruct (O key v H1 E) as (j & hj & Hj & Hm & HKj). exists j, hj. split; [exact Hj|]. split; [exact Hm|]. destruct (decide (i = j)) as [<-|Hn]; [rewrite nupd_eq; auto|rewrite nupd_ne by auto; exact HKj].
  - destruct (get_h _ _ _ _ i _ G Hi) as (h & Hh & W1 & W2 & W3). cbn in W1. destruct (wf_inv_acq _ _ _ _ _ _ _ W1) as (h1 & Hl & Hw).
    pose proof (lstep_held _ _ _ _ _ Hl W2) as HH. cbn in HH. destruct (H _ _ _ Hi Hh) as (S & HL0 & HK). cbn in S.
    exists (<[i := h1]> hs), (nupd Ls i (pos :: Ls i)), Ks. split; [eapply good_lock; eauto; cbn; eauto|]. cbn. split.
    + intros j t h' Ht Hh'. apply upd_cases in Ht as [[<- ->]|[Hn Ht]]; apply upd_cases in Hh' as [[E ->]|[Hn' Hh']]; try congruence; [|rewrite nupd_ne by auto; eauto].
      rewrite nupd_eq. split; [exact S|]. split.
      * intros q Hq. apply elem_of_cons in Hq as [->|Hq].
        -- exists MR. destruct (held_bound MR pos h1 _ eq_refl) as [E0|E0]; [|exact E0]. rewrite HH in E0. rewrite decide_True in E0 by auto. lia.
        -- destruct (HL0 q Hq) as [m Hm]. exists m. destruct (held_bound m q h1 _ eq_refl) as [E0|E0]; [|exact E0]. rewrite HH in E0. lia.
      * intros key y Hy. destruct (HK _ _ Hy). split; auto. right. auto.
    + intros key v Hv E. destruct (O key v Hv E) as (j & hj & Hj & Hm & HKj). destruct (decide (i = j)) as [<-|Hn].
      * exists i, h1. rewrite list_lookup_insert by (eapply lookup_lt_Some; eauto). split; [reflexivity|]. split; [|exact HKj].
        destruct (held_bound MW (lockpos key) h1 _ eq_refl) as [E0|E0]; [|exact E0]. rewrite HH in E0. assert (hj = h) as -> by congruence. lia.
      * exists j, hj. rewrite list_lookup_insert_ne by auto. auto.
  - exists hs, Ls, Ks. split; [eapply good_announce; eauto|]. cbn. split; [|exact O]. intros j t h Ht Hh. apply upd_cases in Ht as [[<- ->]|[Hn Ht]]; [|eauto]. exact (H _ _ _ Hi Hh).
  - destruct (get_h _ _ _ _ i _ G Hi) as (h & Hh & W1 & W2 & W3). cbn in W1. destruct (wf_inv_acq _ _ _ _ _ _ _ W1) as (h1 & Hl & Hw).
    pose proof (lstep_held _ _ _ _ _ Hl W2) as HH. cbn in HH. destruct (H _ _ _ Hi Hh) as (S & HL0 & HK). cbn in S.
    exists (<[i := h1]> hs), (nupd Ls i (pos :: Ls i)), Ks. split; [eapply good_lock; eauto; cbn; eauto|]. cbn. split.
    + intros j t h' Ht Hh'. apply upd_cases in Ht as [[<- ->]|[Hn Ht]]; apply upd_cases in Hh' as [[E ->]|[Hn' Hh']]; try congruence; [|rewrite nupd_ne by auto; eauto].
      rewrite nupd_eq. split; [exact S|]. split.
      * intros q Hq. apply elem_of_cons in Hq as [->|Hq].
        -- exists MW. destruct (held_bound MW pos h1 _ eq_refl) as [E0|E0]; [|exact E0]. rewrite HH in E0. rewrite decide_True in E0 by auto. lia.
        -- destruct (HL0 q Hq) as [m Hm]. exists m. destruct (held_bound m q h1 _ eq_refl) as [E0|E0]; [|exact E0]. rewrite HH in E0. lia.
      * intros key y Hy. destruct (HK _ _ Hy). split; auto. right. auto.
    + intros key v Hv E. destruct (O key v Hv E) as (j & hj & Hj & Hm & HKj). destruct (decide (i = j)) as [<-|Hn].
      * exists i, h1. rewrite list_lookup_insert by (eapply lookup_lt_Some; eauto). split; [reflexivity|]. split; [|exact HKj].
        destruct (held_bound MW (lockpos key) h1 _ eq_refl) as [E0|E0]; [|exact E0]. rewrite HH in E0. assert (hj = h) as -> by congruence. lia.
      * exists j, hj. rewrite list_lookup_insert_ne by auto. auto.
  - destruct (get_h _ _ _ _ i _ G Hi) as (h & Hh & W1 & W2 & W3). cbn in W1. destruct (wf_inv_rel _ _ _ _ _ _ _ W1) as (h1 & Hl & Hw).
    destruct (H _ _ _ Hi Hh) as ([S1 S2] & HL0 & HK).
    exists (<[i := h1]> hs), (nupd Ls i []), (nupd Ks i ∅). split; [eapply good_unlock; eauto; cbn; eauto|]. cbn. split.
    + intros j t h' Ht Hh'. apply upd_cases in Ht as [[<- ->]|[Hn Ht]]; apply upd_cases in Hh' as [[E ->]|[Hn' Hh']]; try congruence; [|rewrite !nupd_ne by auto; eauto].
      rewrite !nupd_eq. split; [exact S2|]. split; [intros p Hp; inversion Hp|]. intros key y Hy. rewrite lookup_empty in Hy. discriminate.
    + intros key v Hv E. destruct (O key v Hv E) as (j & hj & Hj & Hm & HKj). destruct (decide (i = j)) as [<-|Hn].
      * rewrite (S1 _ _ HKj v eq_refl) in E. discriminate.
      * exists j, hj. rewrite list_lookup_insert_ne by auto. rewrite nupd_ne by auto. auto.
  - destruct (get_h _ _ _ _ i _ G Hi) as (h & Hh & W1 & W2 & W3). cbn in W1. destruct (wf_inv_rel _ _ _ _ _ _ _ W1) as (h1 & Hl & Hw).
    destruct (H _ _ _ Hi Hh) as ([S1 S2] & HL0 & HK).
    exists (<[i := h1]> hs), (nupd Ls i []), (nupd Ks i ∅). split; [eapply good_unlock; eauto; cbn; eauto|]. cbn. split.
    + intros j t h' Ht Hh'. apply upd_cases in Ht as [[<- ->]|[Hn Ht]]; apply upd_cases in Hh' as [[E ->]|[Hn' Hh']]; try congruence; [|rewrite !nupd_ne by auto; eauto].
      rewrite !nupd_eq. split; [exact S2|]. split; [intros p Hp; inversion Hp|]. intros key y Hy. rewrite lookup_empty in Hy. discriminate.
    + intros key v Hv E. destruct (O key v Hv E) as (j & hj & Hj & Hm & HKj). destruct (decide (i = j)) as [<-|Hn].
      * rewrite (S1 _ _ HKj v eq_refl) in E. discriminate.
      * exists j, hj. rewrite list_lookup_insert_ne by auto. rewrite nupd_ne by auto. auto.
Qed.
Lemma all_full_at {A : Type} fl (c : conf A) i t : all_full fl c -> ths c !! i = Some t -> tcode t = Crash -> fl i = true.
Proof. intros (hs & Ls & Ks & G & H & O) Hi E. destruct (get_h _ _ _ _ _ _ G Hi) as (h & Hh & _). destruct (H _ _ _ Hi Hh) as (S & _). rewrite E in S. exact S. Qed.
Lemma all_full_wr {A : Type} fl (c : conf A) key v : all_full fl c -> dict (cdb c) !! key = Some v -> hollow v = true -> wr (lk c (lockpos key)) = true.
Proof.
  intros (hs & Ls & Ks & G & H & O) Hv E. destruct (O key v Hv E) as (j & hj & Hj & Hm & _). pose proof (total_ge (held MW (lockpos key)) hs j hj Hj) as Hg. rewrite <- (g_wr _ _ _ _ G), Hm in Hg.
  destruct (wr (lk c (lockpos key))); auto. cbn in Hg. lia.
Qed.
Lemma all_full_done {A : Type} fl (c : conf A) : all_full fl c -> (forall i t, ths c !! i = Some t -> exists a, tcode t = Ret a) -> no_hollow (cdb c).
Proof.
  intros (hs & Ls & Ks & G & H & O) HR key v Hv. destruct (hollow v) eqn:E; [|reflexivity]. exfalso. destruct (O key v Hv E) as (j & hj & Hj & Hm & HKj).
  assert (exists t, ths c !! j = Some t) as [t Ht].
  { destruct (ths c !! j) as [t|] eqn:Et; [eauto|]. exfalso. apply lookup_ge_None in Et. apply lookup_lt_Some in Hj. pose proof (Forall2_length _ _ _ (g_wf _ _ _ _ G)). lia. }
  destruct (HR _ _ Ht) as [a Ha]. destruct (H _ _ _ Ht Hj) as (S & _). rewrite Ha in S. cbn in S. rewrite (S _ _ HKj v eq_refl) in E. discriminate.
Qed.
Lemma has_fresh {A : Type} c h d b (p : prog A) : full c (fun _ K _ => settled K) [] ∅ p -> has c [] ∅ h d (mkT p b).
Proof. intros S. split; [exact S|]. split; [intros q Hq; inversion Hq|]. intros key y Hy. rewrite lookup_empty in Hy. discriminate. Qed.
Lemma all_full_start {A : Type} fl d (ps : list (prog A)) : Forall (Wf.wf (fun _ => True) true true Idle Idle) ps -> no_hollow d ->
  (forall i p, ps !! i = Some p -> full (fl i) (fun _ K _ => settled K) [] ∅ p) -> all_full fl (start d ps).
Proof.
  intros HW Hd HS. eexists _, (fun _ => []), (fun _ => ∅). split; [apply good_start; exact HW|]. split.
  - intros i t h Ht _. cbn in Ht. rewrite list_lookup_fmap in Ht. destruct (ps !! i) as [p|] eqn:E; [|discriminate]. injection Ht as <-. apply has_fresh. auto.
  - intros key v Hv E. cbn in Hv. rewrite (Hd _ _ Hv) in E. discriminate.
Qed.
(** One client alone. *)
Lemma full_runs {A : Type} T d (p : prog A) out : runs T d p out -> forall c L K, full c (fun _ K _ => settled K) L K p -> scoped L K -> (forall key y, K !! key = Some y -> dict d !! key = y) ->
  (forall key v, dict d !! key = Some v -> hollow v = true -> K !! key = Some (Some v)) ->
  (forall d', out = Crashes d' -> c = true) /\ (forall r d', out = Done r d' -> no_hollow d').
Proof.
  induction 1; intros c0 L K HS Hs HK HO; cbn [full] in HS; eauto; try (split; congruence).
  - split; [congruence|]. intros r d' [= <- <-] key v Hv. destruct (hollow v) eqn:E; [|reflexivity]. rewrite (HS _ _ (HO _ _ Hv E) v eq_refl) in E. discriminate.
  - eapply IHruns; [apply HS|apply scoped_set; exact Hs|..].
    + intros y Hy. apply HK. exact Hy.
    + intros _ HN v Hv. destruct (hollow v) eqn:E; [|reflexivity]. rewrite (HO _ _ Hv E) in HN. discriminate.
    + intros q y Hy. unfold learn in Hy. destruct (decide (lockpos key ∈ L)); [|auto]. destruct (decide (key = q)) as [<-|Hn]; [rewrite lookup_insert in Hy; congruence|rewrite lookup_insert_ne in Hy by auto; auto].
    + intros q v Hv E. unfold learn. destruct (decide (lockpos key ∈ L)); [|auto]. destruct (decide (key = q)) as [<-|Hn]; [rewrite lookup_insert; congruence|rewrite lookup_insert_ne by auto; auto].
  - destruct HS as [Hv HS]. eapply IHruns; [apply HS|apply scoped_set; exact Hs|..]; cbn.
    + intros q y Hy. destruct (decide (key = q)) as [<-|Hn].
      * unfold learn in Hy. destruct (decide (lockpos key ∈ L)) as [|Hi]; [|destruct Hi; eapply Hs; eauto]. rewrite lookup_insert in Hy. rewrite lookup_insert. congruence.
      * rewrite lookup_insert_ne by auto. apply HK. unfold learn in Hy. destruct (decide (lockpos key ∈ L)); [rewrite lookup_insert_ne in Hy by auto|]; exact Hy.
    + intros q w Hw E. destruct (decide (key = q)) as [<-|Hn].
      * rewrite lookup_insert in Hw. injection Hw as <-. destruct Hv as [Hv|Hv]; [|congruence]. unfold learn. rewrite decide_True by auto. apply lookup_insert.
      * rewrite lookup_insert_ne in Hw by auto. unfold learn. destruct (decide (lockpos key ∈ L)); [rewrite lookup_insert_ne by auto|]; auto.
  - destruct HS as [Hv HS]. eapply IHruns; [exact HS|..]; cbn.
    + intros q y Hy. destruct (decide (key = q)) as [<-|Hn]; [|rewrite lookup_alter_ne in Hy by auto; eauto]. rewrite lookup_alter in Hy. destruct (K !! key) eqn:E; [|discriminate]. eauto.
    + intros q y Hy. destruct (decide (key = q)) as [<-|Hn]; [|rewrite lookup_alter_ne in Hy by auto; rewrite lookup_alter_ne by auto; auto]. rewrite lookup_alter in Hy. rewrite lookup_alter. destruct (K !! key) as [z|] eqn:E; [|discriminate]. rewrite (HK _ _ E). cbn in Hy. injection Hy as <-. destruct z; reflexivity.
    + intros q w Hw E. destruct (decide (key = q)) as [<-|Hn].
      * rewrite lookup_alter in Hw. rewrite lookup_alter. destruct (dict d !! key) as [z|] eqn:E'; [|discriminate]. cbn in Hw. injection Hw as <-. destruct Hv as [[y Hy]|Hv]; [|congruence]. rewrite Hy. pose proof (HK _ _ Hy) as H1. rewrite E' in H1. subst y. reflexivity.
      * rewrite lookup_alter_ne in Hw by auto. rewrite lookup_alter_ne by auto. auto.
  - eapply IHruns; [apply HS|apply scoped_set; exact Hs|..]; cbn.
    + intros q y Hy. destruct (decide (key = q)) as [<-|Hn].
      * unfold learn in Hy. destruct (decide (lockpos key ∈ L)) as [|Hi]; [|destruct Hi; eapply Hs; eauto]. rewrite lookup_insert in Hy. injection Hy as <-. apply lookup_delete.
      * rewrite lookup_delete_ne by auto. apply HK. unfold learn in Hy. destruct (decide (lockpos key ∈ L)); [rewrite lookup_insert_ne in Hy by auto|]; exact Hy.
    + intros q w Hw E. destruct (decide (key = q)) as [<-|Hn]; [rewrite lookup_delete in Hw; discriminate|]. rewrite lookup_delete_ne in Hw by auto. unfold learn. destruct (decide (lockpos key ∈ L)); [rewrite lookup_insert_ne by auto|]; auto.
  - eapply IHruns; [exact HS| |exact HK|exact HO]. intros q y Hy. right. eapply Hs; eauto.
  - destruct HS as [S1 S2]. eapply IHruns; [exact S2|..].
    + intros q y Hy; rewrite lookup_empty in Hy; discriminate.
    + intros q y Hy; rewrite lookup_empty in Hy; discriminate.
    + intros q v Hv E. rewrite (S1 _ _ (HO _ _ Hv E) v eq_refl) in E. discriminate.
Qed.
End WithParams.
