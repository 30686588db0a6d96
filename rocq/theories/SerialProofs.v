(** Every concurrent execution is matched by one in which sections are atomic. *)
From Verif Require Export Serial ConcProofs.

Section WithParams.
Context {P : Setup}.

(** ** Accesses to locked keys *)
Definition acc_ok {A} (m : mode) (l : list N) (p : prog A) : Prop :=
  match p with
  | DGet key _ | EGet key _ => lockpos key ∈ l
  | DSet key _ _ | DMut key _ _ | DDel key _ | ESet key _ _ | EDel key _ => m = MW /\ lockpos key ∈ l
  | DSeg _ _ => False
  | _ => True
  end.
Definition same_at (a b : data) (key : bytes) : Prop := dvals a !! key = dvals b !! key /\ dends a !! key = dends b !! key.
Definition agree (l : list N) (a b : data) : Prop := forall key, lockpos key ∈ l -> same_at a b key.
Definition off (l : list N) (a b : data) : Prop := forall key, lockpos key ∉ l -> same_at a b key.

Lemma same_at_refl a key : same_at a a key. Proof. split; reflexivity. Qed.
Lemma same_at_sym a b key : same_at a b key -> same_at b a key. Proof. intros []; split; congruence. Qed.
Lemma same_at_trans a b c key : same_at a b key -> same_at b c key -> same_at a c key. Proof. intros [] []; split; congruence. Qed.
Lemma agree_sym l a b : agree l a b -> agree l b a. Proof. intros H k Hk. apply same_at_sym; auto. Qed.
Lemma agree_trans l a b c : agree l a b -> agree l b c -> agree l a c. Proof. intros H1 H2 k Hk. eapply same_at_trans; eauto. Qed.
Lemma agree_refl l a : agree l a a. Proof. intros k Hk. apply same_at_refl. Qed.

(** The effect of an access on the contents, as a function of its node. *)
Definition eff {A} (p : prog A) (a : data) : data :=
  match p with
  | DSet key v _ => mkData (<[key := v]> (dvals a)) (dends a)
  | DMut key v _ => mkData (alter (fun _ => v) key (dvals a)) (dends a)
  | DDel key _ => mkData (delete key (dvals a)) (dends a)
  | ESet key t _ => mkData (dvals a) (<[key := t]> (dends a))
  | EDel key _ => mkData (dvals a) (delete key (dends a))
  | _ => a
  end.
Lemma dprim_eff {A} T a (p : prog A) a' p' : dprim T a p a' p' -> a' = eff p a.
Proof.
  intros (n & n' & H). destruct a as [v e], a' as [v' e']. unfold with_cnt in H. cbn in H. inversion H; subst; reflexivity.
Qed.
Lemma eff_off {A} m l (p : prog A) a : acc_ok m l p -> off l a (eff p a).
Proof.
  intros Ha key Hk. destruct p; cbn in *; try apply same_at_refl; destruct Ha as [_ Ha]; split; cbn; auto; symmetry.
  all: first [apply lookup_insert_ne|apply lookup_alter_ne|apply lookup_delete_ne]; intros ->; auto.
Qed.
Lemma eff_read {A} l (p : prog A) a : acc_ok MR l p -> eff p a = a.
Proof. destruct p; cbn; auto; intros [? _]; discriminate. Qed.
Lemma eff_agree {A} l (p : prog A) a b : agree l a b -> agree l (eff p a) (eff p b).
Proof.
  intros H key Hk. specialize (H key Hk) as [H1 H2]. destruct p; split; cbn; auto.
  - destruct (decide (key = key0)) as [->|]; [rewrite !lookup_insert; auto|rewrite !lookup_insert_ne; auto].
  - destruct (decide (key = key0)) as [->|]; [rewrite !lookup_alter, H1; auto|rewrite !lookup_alter_ne; auto].
  - destruct (decide (key = key0)) as [->|]; [rewrite !lookup_delete; auto|rewrite !lookup_delete_ne; auto].
  - destruct (decide (key = key0)) as [->|]; [rewrite !lookup_insert; auto|rewrite !lookup_insert_ne; auto].
  - destruct (decide (key = key0)) as [->|]; [rewrite !lookup_delete; auto|rewrite !lookup_delete_ne; auto].
Qed.
(** An access to locked keys goes the same way on contents that agree on the locked keys. *)
Lemma dprim_frame {A} T m l a (p : prog A) a' p' b : dprim T a p a' p' -> acc_ok m l p -> agree l a b -> dprim T b p (eff p b) p'.
Proof.
  intros (n & n' & H) Ha Hg. exists n, n'. destruct a as [v e], a' as [v' e'], b as [w f]. unfold with_cnt in *. cbn in *.
  inversion H; subst; cbn in *; try (constructor; auto; fail); try tauto.
  all: try match goal with H : prim _ _ (_ ?key _) _ _ |- _ => destruct (Hg key) as [H1 H2]; [tauto|]; cbn in * end.
  all: try match goal with H : prim _ _ (_ ?key _ _) _ _ |- _ => destruct (Hg key) as [H1 H2]; [tauto|]; cbn in * end.
  all: try rewrite H1; try rewrite H2.
  all: first [exact (P_DGet T (mkDb w f n') _ _)|exact (P_DSet T (mkDb w f n') _ _ _)|exact (P_DDel T (mkDb w f n') _ _)
    |exact (P_CntLoad T (mkDb w f n') _)|exact (P_EGet T (mkDb w f n') _ _)|exact (P_EDel T (mkDb w f n') _ _)].
Qed.
Lemma prim_dprim {A} T d (p : prog A) d' p' : prim T d p d' p' -> dprim T (data_of d) p (data_of d') p'.
Proof. intros H. exists (cnt d), (cnt d'). destruct d, d'. exact H. Qed.

(** ** Partial sections *)
Inductive ins {A} (T : Z -> Prop) (m : mode) (l : list N) : data -> prog A -> data -> prog A -> Prop :=
| I_refl a p : ins T m l a p a p
| I_prim a p a1 p1 b q : dprim T a p a1 p1 -> acc_ok m l p -> ins T m l a1 p1 b q -> ins T m l a p b q
| I_acq a pos m' k b q : ins T m l a k b q -> ins T m l a (Acq pos m' k) b q.
Lemma ins_inside {A} T m l a (p : prog A) b q : ins T m l a p b q -> inside T a p b q.
Proof. induction 1; [apply In_refl|eapply In_prim; eauto|apply In_acq; auto]. Qed.
Lemma ins_trans {A} T m l a (p : prog A) b q c r : ins T m l a p b q -> ins T m l b q c r -> ins T m l a p c r.
Proof. induction 1; intros; auto; [eapply I_prim; eauto|apply I_acq; auto]. Qed.
Lemma acc_mono {A} m l l' (p : prog A) : l ⊆ l' -> acc_ok m l p -> acc_ok m l' p.
Proof. intros Hl. destruct p; cbn; auto; try (intros [? ?]; split; auto). Qed.
Lemma ins_mono {A} T m l l' a (p : prog A) b q : l ⊆ l' -> ins T m l a p b q -> ins T m l' a p b q.
Proof. intros Hl. induction 1; [apply I_refl|eapply I_prim; eauto; eapply acc_mono; eauto|apply I_acq; auto]. Qed.
Lemma ins_off {A} T m l a (p : prog A) b q : ins T m l a p b q -> off l a b.
Proof.
  induction 1; auto; [intros k Hk; apply same_at_refl|]. intros k Hk. apply dprim_eff in H. subst a1.
  eapply same_at_trans; [eapply eff_off; eauto|apply IHins; auto].
Qed.
Lemma ins_read {A} T l a (p : prog A) b q : ins T MR l a p b q -> b = a.
Proof. induction 1; auto. apply dprim_eff in H. rewrite (eff_read _ _ _ H0) in H. congruence. Qed.
Lemma ins_frame {A} T m l a (p : prog A) b q a' : ins T m l a p b q -> agree l a a' -> exists b', ins T m l a' p b' q /\ agree l b b'.
Proof.
  intros H. revert a'. induction H as [a p|a p a1 p1 b q Hp Ho _ IH|a pos m' k b q _ IH]; intros a' Hg.
  - exists a'. split; auto. apply I_refl.
  - destruct (IH (eff p a')) as (b' & H1 & H2).
    + rewrite (dprim_eff _ _ _ _ _ Hp). apply eff_agree; auto.
    + exists b'. split; auto. eapply I_prim; [eapply dprim_frame; eauto|auto|exact H1].
  - destruct (IH a' Hg) as (b' & H1 & H2). exists b'. split; auto. apply I_acq; auto.
Qed.

(** ** The simulation *)
Definition growing (h : lstate) : Prop := match h with Grow _ _ => True | _ => False end.
Lemma wf_grow_acc {A} u m l T d (p : prog A) d' p' : Wf.wf (fun _ => True) u false Idle (Grow m l) p -> prim T d p d' p' -> acc_ok m l p.
Proof.
  intros W Hp. destruct Hp; cbn; auto; inversion W; subst; try discriminate.
  all: repeat match goal with H : _ \/ _ |- _ => destruct H | H : _ /\ _ |- _ => destruct H
    | H : canread _ _ |- _ => destruct H as (? & ? & [=] & ?) | H : canwrite _ _ |- _ => destruct H as (? & [=] & ?) end; subst; try discriminate; auto.
Qed.
Lemma wf_out_acc {A} u h T d (p : prog A) d' p' : Wf.wf (fun _ => True) u false Idle h p -> ~ growing h -> prim T d p d' p' ->
  acc_ok MR [] p \/ exists pos, acc_ok MR [pos] p.
Proof.
  intros W Hg Hp. destruct Hp; cbn; auto; inversion W; subst; try discriminate.
  all: repeat match goal with H : _ \/ _ |- _ => destruct H | H : _ /\ _ |- _ => destruct H | H : exists l, _ = Grow _ l |- _ => destruct H
    | H : canread _ _ |- _ => destruct H as (? & ? & -> & ?) | H : canwrite _ _ |- _ => destruct H as (? & -> & ?) end; subst; cbn in *; try tauto; try discriminate.
  all: right; eexists; left.
Qed.

Definition tsim {A} T (a : data) (d : db) (h : lstate) (q : prog A) (t : thread A) : Prop :=
  match h with
  | Grow m l => exists pos m' k b, q = Acq pos m' k /\ ins T m l a k b (tcode t) /\ agree l b (data_of d)
  | _ => q = tcode t
  end.
Record sim {A} T (c : conf A) (hs : list lstate) (a : data) (qs : list (prog A)) : Prop := mkSim {
  s_th : forall i h t, hs !! i = Some h -> ths c !! i = Some t -> exists q, qs !! i = Some q /\ tsim T a (cdb c) h q t;
  s_free : forall key, (forall (i : nat) l, hs !! i = Some (Grow MW l) -> lockpos key ∉ l) -> same_at a (data_of (cdb c)) key;
  s_len : length qs = length hs }.

Lemma find_list {X} (Q : X -> Prop) (D : forall x, {Q x} + {~ Q x}) (xs : list X) :
  (exists (i : nat) x, xs !! i = Some x /\ Q x) \/ (forall (i : nat) x, xs !! i = Some x -> ~ Q x).
Proof.
  induction xs as [|x ts [(i & t & H1 & H2)|IH]].
  - right. discriminate.
  - left. exists (S i), t. auto.
  - destruct (D x) as [H|H]; [left; exists 0%nat, x; auto|]. right. intros [|i] t E; simpl in E; [injection E as <-; auto|eauto].
Qed.
Definition wgrow (pos : N) (h : lstate) : Prop := match h with Grow MW l => pos ∈ l | _ => False end.
Lemma wgrow_dec pos h : {wgrow pos h} + {~ wgrow pos h}.
Proof. destruct h as [|[] l|]; cbn; auto. apply (decide (pos ∈ l)). Qed.
(** What an unlocked read sees at a lock position: the contents between sections, or those inside a section. *)
Lemma sees {A} T (c : conf A) hs a qs pos : sim T c hs a qs -> length hs = length (ths c) ->
  agree [pos] (data_of (cdb c)) a \/
  exists (j : nat) l pos' m' k b q, hs !! j = Some (Grow MW l) /\ qs !! j = Some (Acq pos' m' k) /\ inside T a k b q /\ agree [pos] (data_of (cdb c)) b.
Proof.
  intros S Hl. destruct (find_list (wgrow pos) (wgrow_dec pos) hs) as [(j & h & Hj & Hw)|Hn].
  - right. destruct h as [|[] l|]; cbn in Hw; try tauto.
    destruct (lookup_lt_is_Some_2 (ths c) j) as [t Ht]; [rewrite <- Hl; eapply lookup_lt_Some; eauto|].
    destruct (s_th _ _ _ _ _ S j _ t Hj Ht) as (q & Hq & pos' & m' & k & b & -> & Hi & Ha).
    exists j, l, pos', m', k, b, (tcode t). repeat split; auto.
    + eapply ins_inside; eauto.
    + symmetry. apply (Ha key). apply elem_of_list_singleton in H. subst. auto.
    + symmetry. apply (Ha key). apply elem_of_list_singleton in H. subst. auto.
  - left. intros key Hk. apply elem_of_list_singleton in Hk. subst pos. apply same_at_sym, (s_free _ _ _ _ _ S).
    intros i l Hi Hin. apply (Hn i _ Hi). exact Hin.
Qed.
Lemma good_len {A} u s (c : conf A) hs : good u s c hs -> length hs = length (ths c).
Proof. intros G. eapply Forall2_length. apply (g_wf _ _ _ _ G). Qed.
Lemma tsim_frame {A} T a a' d d' h (q : prog A) t : tsim T a d h q t -> (forall m l, h = Grow m l -> agree l a a' /\ agree l (data_of d) (data_of d')) -> tsim T a' d' h q t.
Proof.
  intros H Hf. destruct h as [|m l|]; cbn in *; auto. destruct H as (pos & m' & k & b & -> & Hi & Ha). destruct (Hf m l eq_refl) as [H1 H2].
  destruct (ins_frame _ _ _ _ _ _ _ a' Hi H1) as (b' & Hi' & Hb). exists pos, m', k, b'. repeat split; auto.
  - apply (agree_trans _ _ _ _ (agree_sym _ _ _ Hb) (agree_trans _ _ _ _ Ha H2) key H).
  - apply (agree_trans _ _ _ _ (agree_sym _ _ _ Hb) (agree_trans _ _ _ _ Ha H2) key H).
Qed.
(** Two growing goroutines one of which writes have no lock in common. *)
Lemma grow_disjoint {A} u s (c : conf A) hs (i j : nat) l m l' : good u s c hs -> i <> j -> hs !! i = Some (Grow MW l) -> hs !! j = Some (Grow m l') ->
  forall p, p ∈ l -> p ∈ l' -> False.
Proof.
  intros G Hn Hi Hj p H1 H2. eapply (exclusive u s c hs i j _ _ m p G Hn Hi Hj); cbn; rewrite decide_True; auto.
Qed.
Lemma lookup_upd {X} (l : list X) i j x y : <[i := x]> l !! j = Some y -> (i = j /\ y = x) \/ (i <> j /\ l !! j = Some y).
Proof. intros H. apply list_lookup_insert_Some in H. intuition. Qed.

Lemma sim_prim {A} u T (d : db) L (ts : list (thread A)) hs a qs i p d' p' : good u false (mkC d L ts) hs -> sim T (mkC d L ts) hs a qs ->
  ts !! i = Some (mkT p false) -> prim T d p d' p' ->
  exists qs', sim T (mkC d' L (<[i := mkT p' false]> ts)) hs a qs' /\ rtc (astep T) (a, qs) (a, qs').
Proof.
  intros G S Hi Hp. destruct (get_h _ _ _ _ i _ G Hi) as (h & Hh & W & _ & _). cbn in W.
  destruct (s_th _ _ _ _ _ S i h _ Hh Hi) as (q & Hq & Hs). pose proof (prim_dprim _ _ _ _ _ Hp) as Hd.
  pose proof (dprim_eff _ _ _ _ _ Hd) as He.
  assert (Hout : forall l0, ~ growing h -> acc_ok MR l0 p -> data_of d' = data_of d /\ q = p /\ (forall b, agree l0 (data_of d) b -> dprim T b p b p') /\
    (astep T (a, qs) (a, <[i := p']> qs) -> exists qs', sim T (mkC d' L (<[i := mkT p' false]> ts)) hs a qs' /\ rtc (astep T) (a, qs) (a, qs'))).
  { intros l0 Hg Ha. rewrite (eff_read _ _ _ Ha) in He. assert (q = p) as -> by (destruct h; cbn in *; tauto). repeat split; auto.
    - intros b Hb. pose proof (dprim_frame _ _ _ _ _ _ _ b Hd Ha Hb) as H. rewrite (eff_read _ _ _ Ha) in H. exact H.
    - intros Hstep. exists (<[i := p']> qs). split; [|apply rtc_once; exact Hstep]. constructor; cbn.
      + intros j h' t Hj Ht. apply lookup_upd in Ht as [[-> ->]|[Hn Ht]].
        * exists p'. split; [apply list_lookup_insert; eapply lookup_lt_Some; eauto|]. assert (h' = h) as -> by congruence. destruct h; cbn in *; tauto.
        * rewrite list_lookup_insert_ne by auto. destruct (s_th _ _ _ _ _ S j h' t Hj Ht) as (q' & Hq' & Hs'). exists q'. split; auto.
          eapply tsim_frame; [exact Hs'|]. intros. cbn. rewrite He. split; apply agree_refl.
      + intros key Hk. rewrite He. apply (s_free _ _ _ _ _ S key Hk).
      + rewrite insert_length. apply (s_len _ _ _ _ _ S). }
  destruct h as [|m l|m l].
  - destruct (wf_out_acc _ _ _ _ _ _ _ W (fun x => x) Hp) as [Ha|[pos Ha]].
    + destruct (Hout [] (fun x => x) Ha) as (He' & -> & Hb & Hfin). apply Hfin. apply (A_outside T a qs i p p' Hq). apply Hb. intros key Hk. inversion Hk.
    + destruct (Hout [pos] (fun x => x) Ha) as (He' & -> & Hb & Hfin). apply Hfin. destruct (sees _ _ _ _ _ pos S (good_len _ _ _ _ G)) as [Hv|(j & l & pos' & m' & k & b & q & Hj & Hqj & Hins & Hv)].
      * apply (A_outside T a qs i p p' Hq). apply Hb. exact Hv.
      * apply (A_peek T a qs i p p' j pos' m' k b q); auto. congruence.
  - exists qs. split; [|reflexivity]. pose proof (wf_grow_acc _ _ _ _ _ _ _ _ W Hp) as Ha. constructor; cbn.
    + intros j h' t Hj Ht. apply lookup_upd in Ht as [[-> ->]|[Hn Ht]].
      * assert (h' = Grow m l) as -> by congruence. exists q. split; auto. destruct Hs as (pos & m' & k & b & -> & Hins & Hag). cbn in *.
        exists pos, m', k, (eff p b). split; auto. split.
        -- eapply ins_trans; [exact Hins|]. eapply I_prim; [|exact Ha|apply I_refl]. eapply dprim_frame; [exact Hd|exact Ha|]. apply agree_sym. exact Hag.
        -- rewrite He. apply eff_agree. exact Hag.
      * destruct (s_th _ _ _ _ _ S j h' t Hj Ht) as (q' & Hq' & Hs'). exists q'. split; auto. eapply tsim_frame; [exact Hs'|]. intros m2 l2 ->. split; [apply agree_refl|].
        cbn. rewrite He. intros key Hk. destruct m; [rewrite (eff_read _ _ _ Ha); apply same_at_refl|].
        apply (eff_off _ _ _ _ Ha). intros Hin. eapply (grow_disjoint _ _ _ _ i j l m2 l2 G); eauto.
    + intros key Hk. rewrite He. destruct m; [rewrite (eff_read _ _ _ Ha); apply (s_free _ _ _ _ _ S key Hk)|].
      eapply same_at_trans; [apply (s_free _ _ _ _ _ S key Hk)|]. apply (eff_off _ _ _ _ Ha). apply (Hk i). exact Hh.
    + apply (s_len _ _ _ _ _ S).
  - destruct (wf_out_acc _ _ _ _ _ _ _ W (fun x => x) Hp) as [Ha|[pos Ha]].
    + destruct (Hout [] (fun x => x) Ha) as (He' & -> & Hb & Hfin). apply Hfin. apply (A_outside T a qs i p p' Hq). apply Hb. intros key Hk. inversion Hk.
    + destruct (Hout [pos] (fun x => x) Ha) as (He' & -> & Hb & Hfin). apply Hfin. destruct (sees _ _ _ _ _ pos S (good_len _ _ _ _ G)) as [Hv|(j & l' & pos' & m' & k & b & q & Hj & Hqj & Hins & Hv)].
      * apply (A_outside T a qs i p p' Hq). apply Hb. exact Hv.
      * apply (A_peek T a qs i p p' j pos' m' k b q); auto. congruence.
Qed.
(** Code and locks change, the contents do not. *)
Lemma sim_announce {A} T d L L' (ts : list (thread A)) hs a qs i p b : sim T (mkC d L ts) hs a qs -> ts !! i = Some (mkT p b) ->
  sim T (mkC d L' (<[i := mkT p true]> ts)) hs a qs.
Proof.
  intros S Hi. constructor; cbn.
  - intros j h' t Hj Ht. apply lookup_upd in Ht as [[-> ->]|[Hn Ht]].
    + destruct (s_th _ _ _ _ _ S j h' _ Hj Hi) as (q & Hq & Hs). exists q. split; auto.
    + apply (s_th _ _ _ _ _ S j h' t Hj Ht).
  - apply (s_free _ _ _ _ _ S).
  - apply (s_len _ _ _ _ _ S).
Qed.
(** No one else writes under a lock that has just been granted. *)
Lemma sim_lock {A} u T d L L' (ts : list (thread A)) hs a qs i pos m k b h h1 :
  good u false (mkC d L ts) hs -> good u false (mkC d L' (<[i := mkT k false]> ts)) (<[i := h1]> hs) ->
  sim T (mkC d L ts) hs a qs -> ts !! i = Some (mkT (Acq pos m k) b) -> hs !! i = Some h -> lstep h pos m true h1 -> wr (L pos) = false ->
  sim T (mkC d L' (<[i := mkT k false]> ts)) (<[i := h1]> hs) a qs.
Proof.
  intros G G1 S Hi Hh Hl Hwr. destruct (s_th _ _ _ _ _ S i h _ Hh Hi) as (q & Hq & Hs).
  assert (Hpos : forall key, lockpos key = pos -> same_at a (data_of d) key).
  { intros key <-. apply (s_free _ _ _ _ _ S key). intros j l Hj Hin. pose proof (total_ge (held MW (lockpos key)) hs j _ Hj) as Hg. cbn in Hg.
    rewrite decide_True in Hg by auto. rewrite <- (g_wr _ _ _ _ G (lockpos key)) in Hg. cbn in Hg. rewrite Hwr in Hg. cbn in Hg. lia. }
  constructor; cbn.
  - intros j h' t Hj Ht. apply lookup_upd in Ht as [[-> ->]|[Hn Ht]].
    + rewrite list_lookup_insert in Hj by (eapply lookup_lt_Some; eauto). injection Hj as <-. exists q. split; auto.
      inversion Hl; subst; cbn in *.
      * exists pos, m, k, a. split; auto. split; [apply I_refl|]. intros key Hk. apply Hpos. apply elem_of_list_singleton in Hk. auto.
      * destruct Hs as (pos0 & m0 & k0 & b0 & -> & Hins & Hag). exists pos0, m0, k0, b0. split; auto. split.
        -- eapply ins_trans; [eapply ins_mono; [|exact Hins]|apply I_acq, I_refl]. intros x Hx. apply elem_of_app. auto.
        -- intros key Hk. destruct (decide (lockpos key ∈ l)) as [Hin|Hin]; [apply Hag; auto|].
           eapply same_at_trans; [apply same_at_sym; eapply ins_off; eauto|]. apply Hpos. apply elem_of_app in Hk as [Hk|Hk]; [tauto|]. apply elem_of_list_singleton in Hk. auto.
    + rewrite list_lookup_insert_ne in Hj by auto. apply (s_th _ _ _ _ _ S j h' t Hj Ht).
  - intros key Hk. apply (s_free _ _ _ _ _ S key). intros j l Hj. destruct (decide (i = j)) as [<-|Hn].
    + intros Hin. assert (h = Grow MW l) as -> by congruence. inversion Hl; subst.
      eapply (Hk i); [apply list_lookup_insert; eapply lookup_lt_Some; eauto|]. apply elem_of_app. auto.
    + apply (Hk j). rewrite list_lookup_insert_ne by auto. exact Hj.
  - rewrite insert_length. apply (s_len _ _ _ _ _ S).
Qed.
Lemma sim_unlock {A} u T d L L' (ts : list (thread A)) hs a qs i pos m k h h1 : good u false (mkC d L ts) hs ->
  sim T (mkC d L ts) hs a qs -> ts !! i = Some (mkT (Rel pos m k) false) -> hs !! i = Some h -> lstep h pos m false h1 ->
  exists a' qs', sim T (mkC d L' (<[i := mkT k false]> ts)) (<[i := h1]> hs) a' qs' /\ rtc (astep T) (a, qs) (a', qs').
Proof.
  intros G S Hi Hh Hl. destruct (s_th _ _ _ _ _ S i h _ Hh Hi) as (q & Hq & Hs).
  assert (Hg1 : forall m' l', h1 <> Grow m' l') by (inversion Hl; subst; destruct l; discriminate).
  assert (Hcode : forall a', tsim T a' d h1 k (mkT k false)) by (intros a'; destruct h1 as [|m' l'|]; cbn; auto; destruct (Hg1 m' l'); auto).
  inversion Hl; subst.
  - destruct Hs as (pos0 & m0 & k0 & b & -> & Hins & Hag). exists b, (<[i := k]> qs). split.
    + assert (Hoth : forall j m' l', i <> j -> hs !! j = Some (Grow m' l') -> agree l' a b).
      { intros j m' l' Hn Hj key Hk. destruct m; [rewrite (ins_read _ _ _ _ _ _ Hins); apply same_at_refl|].
        eapply ins_off; [exact Hins|]. intros Hin. eapply (grow_disjoint _ _ _ _ i j _ m' l' G); eauto. }
      constructor; cbn.
      * intros j h' t Hj Ht. apply lookup_upd in Ht as [[-> ->]|[Hn Ht]].
        -- rewrite list_lookup_insert in Hj by (eapply lookup_lt_Some; eauto). injection Hj as <-. exists k.
           split; [apply list_lookup_insert; eapply lookup_lt_Some; eauto|]. apply Hcode.
        -- rewrite list_lookup_insert_ne in Hj by auto. rewrite list_lookup_insert_ne by auto.
           destruct (s_th _ _ _ _ _ S j h' t Hj Ht) as (q' & Hq' & Hs'). exists q'. split; auto. eapply tsim_frame; [exact Hs'|].
           intros m' l' ->. split; [eapply Hoth; eauto|apply agree_refl].
      * intros key Hk. destruct (decide (lockpos key ∈ pos :: l)) as [Hin|Hin]; [apply Hag; auto|].
        eapply same_at_trans; [apply same_at_sym; eapply ins_off; eauto|]. apply (s_free _ _ _ _ _ S key).
        intros j l' Hj. destruct (decide (i = j)) as [<-|Hn]; [congruence|]. apply (Hk j). rewrite list_lookup_insert_ne by auto. exact Hj.
      * rewrite !insert_length. apply (s_len _ _ _ _ _ S).
    + apply rtc_once. eapply A_section; [exact Hq|]. eapply ins_inside. exact Hins.
  - cbn in Hs. subst q. exists a, (<[i := k]> qs). split.
    + constructor; cbn.
      * intros j h' t Hj Ht. apply lookup_upd in Ht as [[-> ->]|[Hn Ht]].
        -- rewrite list_lookup_insert in Hj by (eapply lookup_lt_Some; eauto). injection Hj as <-. exists k.
           split; [apply list_lookup_insert; eapply lookup_lt_Some; eauto|]. apply Hcode.
        -- rewrite list_lookup_insert_ne in Hj by auto. rewrite list_lookup_insert_ne by auto. apply (s_th _ _ _ _ _ S j h' t Hj Ht).
      * intros key Hk. apply (s_free _ _ _ _ _ S key).
        intros j l' Hj. destruct (decide (i = j)) as [<-|Hn]; [congruence|]. apply (Hk j). rewrite list_lookup_insert_ne by auto. exact Hj.
      * rewrite !insert_length. apply (s_len _ _ _ _ _ S).
    + apply rtc_once. eapply A_release. exact Hq.
Qed.
Lemma sim_step {A} u T (c c' : conf A) hs a qs : good u false c hs -> sim T c hs a qs -> cstep T c c' ->
  exists hs' a' qs', good u false c' hs' /\ sim T c' hs' a' qs' /\ rtc (astep T) (a, qs) (a', qs').
Proof.
  intros G S H. destruct H as [d L ts i p d' p' Hi Hp|d L ts i pos k n Hi HL|d L ts i pos k n Hi HL|d L ts i pos k Hi HL|d L ts i pos k n b Hi HL|d L ts i pos k n b Hi HL].
  - destruct (sim_prim _ _ _ _ _ _ _ _ _ _ _ _ G S Hi Hp) as (qs' & S' & R). exists hs, a, qs'. split; auto. eapply good_prim; eauto.
  - destruct (get_h _ _ _ _ i _ G Hi) as (h & Hh & W1 & W2 & W3). cbn in W1. destruct (wf_inv_acq _ _ _ _ _ _ _ W1) as (h1 & Hl & Hw).
    assert (G1 : good u false (mkC d (fupd L pos (mkRw (Datatypes.S n) false false)) (<[i := mkT k false]> ts)) (<[i := h1]> hs)) by (eapply good_lock; eauto; cbn; eauto).
    exists (<[i := h1]> hs), a, qs. split; auto. split; [|reflexivity]. eapply sim_lock; [exact G|exact G1|exact S|exact Hi|exact Hh|exact Hl|]. rewrite HL. auto.
  - exists hs, a, qs. split; [eapply good_announce; eauto|]. split; [eapply sim_announce; eauto|reflexivity].
  - destruct (get_h _ _ _ _ i _ G Hi) as (h & Hh & W1 & W2 & W3). cbn in W1. destruct (wf_inv_acq _ _ _ _ _ _ _ W1) as (h1 & Hl & Hw).
    assert (G1 : good u false (mkC d (fupd L pos (mkRw 0 true false)) (<[i := mkT k false]> ts)) (<[i := h1]> hs)) by (eapply good_lock; eauto; cbn; eauto).
    exists (<[i := h1]> hs), a, qs. split; auto. split; [|reflexivity]. eapply sim_lock; [exact G|exact G1|exact S|exact Hi|exact Hh|exact Hl|]. rewrite HL. auto.
  - destruct (get_h _ _ _ _ i _ G Hi) as (h & Hh & W1 & W2 & W3). cbn in W1. destruct (wf_inv_rel _ _ _ _ _ _ _ W1) as (h1 & Hl & Hw).
    destruct (sim_unlock u T d L (fupd L pos (mkRw n false b)) ts hs a qs i pos MR k h h1) as (a' & qs' & S' & R); auto.
    exists (<[i := h1]> hs), a', qs'. split; auto. eapply good_unlock; eauto. cbn. eauto.
  - destruct (get_h _ _ _ _ i _ G Hi) as (h & Hh & W1 & W2 & W3). cbn in W1. destruct (wf_inv_rel _ _ _ _ _ _ _ W1) as (h1 & Hl & Hw).
    destruct (sim_unlock u T d L (fupd L pos (mkRw n false b)) ts hs a qs i pos MW k h h1) as (a' & qs' & S' & R); auto.
    exists (<[i := h1]> hs), a', qs'. split; auto. eapply good_unlock; eauto. cbn. eauto.
Qed.

Lemma sim_corresponds {A} u T (c : conf A) hs a qs : good u false c hs -> sim T c hs a qs -> corresponds T c (a, qs).
Proof.
  intros G S. split; [cbn; rewrite (s_len _ _ _ _ _ S); eapply good_len; eauto|]. split.
  - intros i t Ht. destruct (get_h _ _ _ _ i _ G Ht) as (h & Hh & _). destruct (s_th _ _ _ _ _ S i h t Hh Ht) as (q & Hq & Hs). cbn.
    destruct h as [|m l|m l]; cbn in Hs; subst; auto. destruct Hs as (pos & m' & k & b & -> & Hi & _). right. exists pos, m', k, b. split; auto. eapply ins_inside; eauto.
  - intros key Hw. apply (s_free _ _ _ _ _ S key). intros i l Hi Hin. pose proof (total_ge (held MW (lockpos key)) hs i _ Hi) as Hg. cbn in Hg.
    rewrite decide_True in Hg by auto. rewrite <- (g_wr _ _ _ _ G (lockpos key)), Hw in Hg. cbn in Hg. lia.
Qed.
Lemma sim_start {A} T d (ps : list (prog A)) : sim T (start d ps) (map (fun _ => Idle) ps) (data_of d) ps.
Proof.
  constructor; cbn.
  - intros i h t Hh Ht. apply list_lookup_fmap_inv in Hh as (p & -> & Hp). apply list_lookup_fmap_inv in Ht as (p' & -> & Hp').
    exists p'. split; auto. reflexivity.
  - intros. apply same_at_refl.
  - rewrite map_length. auto.
Qed.
Definition all_returned {A} (c : conf A) : Prop := forall i t, ths c !! i = Some t -> returned t.
Lemma sim_final {A} u T (c : conf A) hs a qs : good u false c hs -> sim T c hs a qs -> all_returned c -> a = data_of (cdb c) /\ qs = map tcode (ths c).
Proof.
  intros G S Hr. assert (Hw : forall p, wr (lk c p) = false). { intros p. rewrite (all_free _ _ _ _ G Hr p). reflexivity. }
  destruct (sim_corresponds _ _ _ _ _ _ G S) as (Hl & _ & Hk). cbn in *. split.
  - destruct a as [v e]. unfold data_of. f_equal; apply map_eq; intros key; apply (Hk key (Hw _)).
  - apply list_eq. intros i. rewrite list_lookup_fmap. destruct (ths c !! i) as [t|] eqn:Ht; cbn.
    + destruct (get_h _ _ _ _ i _ G Ht) as (h & Hh & W & _). destruct (s_th _ _ _ _ _ S i h t Hh Ht) as (q & Hq & Hs).
      destruct (Hr i t Ht) as [x E]. rewrite E in W. inversion W; subst. cbn in Hs. congruence.
    + apply lookup_ge_None in Ht. apply lookup_ge_None. lia.
Qed.
Lemma sim_rtc {A} u T (c c' : conf A) : rtc (cstep T) c c' -> forall hs a qs, good u false c hs -> sim T c hs a qs ->
  exists hs' a' qs', good u false c' hs' /\ sim T c' hs' a' qs' /\ rtc (astep T) (a, qs) (a', qs').
Proof.
  induction 1 as [c|c c1 c' Hs _ IH]; intros hs a qs G S; [exists hs, a, qs; split; [exact G|split; [exact S|apply rtc_refl]]|].
  destruct (sim_step _ _ _ _ _ _ _ G S Hs) as (hs1 & a1 & qs1 & G1 & S1 & R1). destruct (IH _ _ _ G1 S1) as (hs' & a' & qs' & G' & S' & R').
  exists hs', a', qs'. split; auto. split; auto. etransitivity; eauto.
Qed.
Lemma sim_path {A} u T (f : nat -> conf A) N hs a qs : good u false (f 0%nat) hs -> sim T (f 0%nat) hs a qs -> (forall n, (n < N)%nat -> cstep T (f n) (f (S n))) ->
  exists g : nat -> data * list (prog A), g 0%nat = (a, qs) /\ (forall n, (n <= N)%nat -> corresponds T (f n) (g n)) /\ (forall n, (n < N)%nat -> rtc (astep T) (g n) (g (S n))).
Proof.
  revert f hs a qs. induction N as [|N IH]; intros f hs a qs G S H.
  - exists (fun _ => (a, qs)). split; auto. split; [|intros; lia]. intros n Hn. assert (n = 0%nat) as -> by lia. eapply sim_corresponds; eauto.
  - destruct (sim_step _ _ _ _ _ _ _ G S (H 0%nat ltac:(lia))) as (hs1 & a1 & qs1 & G1 & S1 & R1).
    destruct (IH (fun n => f (Datatypes.S n)) hs1 a1 qs1 G1 S1) as (g & H0 & H1 & H2); [intros; apply H; lia|].
    exists (fun n => match n with O => (a, qs) | Datatypes.S n => g n end). split; auto. split.
    + intros [|n] Hn; [eapply sim_corresponds; eauto|apply H1; lia].
    + intros [|n] Hn; [rewrite H0; exact R1|apply H2; lia].
Qed.
(** For clients. *)
Lemma no_keys_allows cs : no_keys cs -> allows true false cs.
Proof. intros H cmds cmd H1 H2. rewrite (H _ _ H1 H2). auto. Qed.
Lemma good_clients0 u s d cs : allows u s cs -> good u s (clients d cs) (map (fun _ => Idle) (map client cs)).
Proof.
  intros H. apply good_start. apply Forall_forall. intros p Hp.
  apply elem_of_list_In in Hp. apply elem_of_list_fmap in Hp as (cmds & -> & Hc). apply wf_client. intros cmd Hi. eapply H; eauto.
Qed.
Lemma clients_path T d cs f N : no_keys cs -> f 0%nat = clients d cs -> (forall n, (n < N)%nat -> cstep T (f n) (f (S n))) ->
  exists g : nat -> data * list (prog (list rdata)), g 0%nat = (data_of d, map client cs) /\
    (forall n, (n <= N)%nat -> corresponds T (f n) (g n)) /\ (forall n, (n < N)%nat -> rtc (astep T) (g n) (g (S n))).
Proof.
  intros Hk H0 Hf. eapply (sim_path true); [rewrite H0; apply good_clients0; apply no_keys_allows; auto|rewrite H0; apply sim_start|auto].
Qed.
Lemma clients_serial T d cs c : no_keys cs -> rtc (cstep T) (clients d cs) c -> all_returned c ->
  rtc (astep T) (data_of d, map client cs) (data_of (cdb c), map tcode (ths c)).
Proof.
  intros Hk R Hr. destruct (sim_rtc true T _ _ R _ _ _ (good_clients0 true false d cs (no_keys_allows cs Hk)) (sim_start T d (map client cs))) as (hs & a & qs & G & S & R').
  destruct (sim_final _ _ _ _ _ _ G S Hr) as [<- <-]. exact R'.
Qed.
End WithParams.
