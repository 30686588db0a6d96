(** Proof machinery: a weakest-precondition calculus for [runs]. *)
From Verif Require Export Spec.

Section WithParams.
Context {P : Setup}.

Fixpoint wp {A} (T : Z -> Prop) (d : db) (p : prog A) (Q : outcome A -> Prop) : Prop :=
  match p with
  | Ret a => Q (Done a d)
  | Crash => Q (Crashes d)
  | Hang => Q (Hangs d)
  | Now k => forall t, T t -> wp T d (k t) Q
  | Range l k => forall l', Permutation l' l -> wp T d (k l') Q
  | DGet key k => wp T d (k (dict d !! key)) Q
  | DSet key v k =>
      wp T (mkDb (<[key := v]> (dict d)) (exps d) (cnt d))
         (k (match dict d !! key with Some _ => false | None => true end)) Q
  | DMut key v k => wp T (mkDb (alter (fun _ => v) key (dict d)) (exps d) (cnt d)) k Q
  | DDel key k =>
      wp T (mkDb (delete key (dict d)) (exps d) (cnt d))
         (k (match dict d !! key with Some _ => true | None => false end)) Q
  | DSeg i k => forall l', Permutation l' (seg_keys d i) -> wp T d (k l') Q
  | CntLoad k => wp T d (k (cnt d)) Q
  | CntStore c k => wp T (mkDb (dict d) (exps d) c) k Q
  | EGet key k => wp T d (k (exps d !! key)) Q
  | ESet key t k => wp T (mkDb (dict d) (<[key := t]> (exps d)) (cnt d)) k Q
  | EDel key k =>
      wp T (mkDb (dict d) (delete key (exps d)) (cnt d))
         (k (match exps d !! key with Some _ => true | None => false end)) Q
  | Acq _ _ k => wp T d k Q
  | Rel _ _ k => wp T d k Q
  end.

Lemma wp_sound {A} T d (p : prog A) Q out : runs T d p out -> wp T d p Q -> Q out.
Proof. induction 1; simpl; auto. Qed.

Lemma wp_complete {A} T d (p : prog A) : wp T d p (runs T d p).
Proof.
  assert (H : forall (Q : outcome A -> Prop), (forall out, runs T d p out -> Q out) -> wp T d p Q);
    [|apply H; auto].
  revert d. induction p; intros d Q HQ; simpl; intros;
    try (apply HQ; constructor); eauto using @runs.
Qed.

Lemma wp_mono {A} T d (p : prog A) (Q Q' : outcome A -> Prop) :
  (forall out, Q out -> Q' out) -> wp T d p Q -> wp T d p Q'.
Proof. intros HQ. revert d. induction p; simpl; eauto. Qed.

Lemma wp_iff {A} T d (p : prog A) Q : wp T d p Q <-> (forall out, runs T d p out -> Q out).
Proof.
  split.
  - intros H out Hr. eapply wp_sound; eauto.
  - intros H. eapply wp_mono; [exact H|]. apply wp_complete.
Qed.

Lemma wp_bind {A C} T d (p : prog A) (f : A -> prog C) Q :
  wp T d (pbind p f) Q <->
  wp T d p (fun o => match o with
                     | Done a d' => wp T d' (f a) Q
                     | Crashes d' => Q (Crashes d')
                     | Hangs d' => Q (Hangs d')
                     end).
Proof.
  revert d. induction p; intros dd; simpl; try tauto; try (rewrite <- ?H; tauto);
    try (split; intros HH; intros; apply H; auto; fail); auto.
Qed.

Lemma run_runs {A} now d (p : prog A) : runs (eq now) d p (run now d p).
Proof. revert d. induction p; intros; simpl; econstructor; eauto. Qed.

Lemma runs_mono {A} (T T' : Z -> Prop) d (p : prog A) out :
  (forall t, T t -> T' t) -> runs T d p out -> runs T' d p out.
Proof. intros HT. induction 1; econstructor; eauto. Qed.

(** ** Database operations *)
Definition put (k : bytes) (v : value) (d : db) : db :=
  mkDb (<[k := v]> (dict d)) (exps d) (match dict d !! k with Some _ => cnt d | None => cnt d + 1 end).
Definition mut (k : bytes) (v : value) (d : db) : db :=
  mkDb (alter (fun _ => v) k (dict d)) (exps d) (cnt d).
Definition ddel (k : bytes) (d : db) : db :=
  mkDb (delete k (dict d)) (exps d) (match dict d !! k with Some _ => cnt d - 1 | None => cnt d end).
Definition edel (k : bytes) (d : db) : db := mkDb (dict d) (delete k (exps d)) (cnt d).
Definition eset (k : bytes) (t : Z) (d : db) : db := mkDb (dict d) (<[k := t]> (exps d)) (cnt d).
Definition purge (k : bytes) (d : db) : db := edel k (ddel k d).

Definition expired (now : Z) (d : db) (k : bytes) : bool :=
  match exps d !! k with Some e => e <? now | None => false end.
Definition hasb {A} (o : option A) : bool := match o with Some _ => true | None => false end.

Context {C : Type}.
Implicit Types (f : unit -> prog C).

Lemma wp_dict_set T d k v f Q :
  wp T d (pbind (dict_set k v) f) Q <-> wp T (put k v d) (f tt) Q.
Proof. unfold put, dict_set; simpl. destruct (dict d !! k); simpl; reflexivity. Qed.

Lemma wp_dict_del T d k (f : bool -> prog C) Q :
  wp T d (pbind (dict_del k) f) Q <-> wp T (ddel k d) (f (hasb (dict d !! k))) Q.
Proof. unfold ddel, dict_del; simpl. destruct (dict d !! k); simpl; reflexivity. Qed.

Lemma wp_dict_get T d k (f : option value -> prog C) Q :
  wp T d (pbind (dict_get k) f) Q <-> wp T d (f (dict d !! k)) Q.
Proof. reflexivity. Qed.

Lemma wp_exp_get T d k (f : option Z -> prog C) Q :
  wp T d (pbind (exp_get k) f) Q <-> wp T d (f (exps d !! k)) Q.
Proof. reflexivity. Qed.

Lemma wp_obj_put T d k v f Q :
  wp T d (pbind (obj_put k v) f) Q <-> wp T (mut k v d) (f tt) Q.
Proof. reflexivity. Qed.

Lemma wp_delete_expire T d k (f : bool -> prog C) Q :
  wp T d (pbind (delete_expire k) f) Q <-> wp T (edel k d) (f (hasb (exps d !! k))) Q.
Proof. unfold edel, delete_expire; simpl. reflexivity. Qed.

Lemma wp_set_expire T d k t (f : Z -> prog C) Q :
  wp T d (pbind (set_expire k t) f) Q <->
  match dict d !! k with Some _ => wp T (eset k t d) (f 1) Q | None => wp T d (f 0) Q end.
Proof. unfold set_expire, eset; simpl. destruct (dict d !! k); reflexivity. Qed.

Lemma wp_now now d (f : Z -> prog C) Q :
  wp (eq now) d (pbind now_unix f) Q <-> wp (eq now) d (f now) Q.
Proof. simpl. split; [intros H; apply H; auto|intros H t <-; auto]. Qed.

Lemma wp_with_lock {A} T d m k (body : prog A) (f : A -> prog C) Q :
  wp T d (pbind (with_lock m k body) f) Q <-> wp T d (pbind body f) Q.
Proof.
  unfold with_lock, lock, unlock. rewrite !wp_bind. cbn [wp pbind].
  rewrite wp_bind. split; apply wp_mono; intros []; simpl; auto.
Qed.

Lemma wp_acq_all {A} T d m l (f : unit -> prog A) (Q : outcome A -> Prop) :
  wp T d (pbind (acq_all m l) f) Q <-> wp T d (f tt) Q.
Proof. induction l; simpl; auto. Qed.
Lemma wp_rel_all {A} T d m l (f : unit -> prog A) (Q : outcome A -> Prop) :
  wp T d (pbind (rel_all m l) f) Q <-> wp T d (f tt) Q.
Proof. induction l; simpl; auto. Qed.

Lemma pbind_assoc {A B D} (p : prog A) (f : A -> prog B) (g : B -> prog D) T d (Q : outcome D -> Prop) :
  wp T d (pbind (pbind p f) g) Q <-> wp T d (pbind p (fun x => pbind (f x) g)) Q.
Proof.
  rewrite !wp_bind. split; apply wp_mono; intros []; simpl; auto; rewrite wp_bind; auto.
Qed.

Lemma wp_with_mlock {A} T d m ks (body : prog A) (f : A -> prog C) Q :
  wp T d (pbind (with_mlock m ks body) f) Q <-> wp T d (pbind body f) Q.
Proof.
  unfold with_mlock, mlock, munlock.
  rewrite pbind_assoc, wp_acq_all, pbind_assoc, (wp_bind _ _ body), (wp_bind _ _ body).
  split; apply wp_mono; intros [a d' | |]; auto; rewrite pbind_assoc, wp_rel_all; auto.
Qed.

Lemma wp_check_expire now d k (f : bool -> prog C) Q :
  wp (eq now) d (pbind (check_expire k) f) Q <-> wp (eq now) d (f (expired now d k)) Q.
Proof.
  unfold check_expire, expired; simpl. destruct (exps d !! k); simpl; [|reflexivity].
  split; [intros H; apply H; auto|intros H t <-; auto].
Qed.

Lemma wp_purge now d k (f : bool -> prog C) Q :
  wp (eq now) d (pbind (delete_expired_key k) f) Q <->
  wp (eq now) (if expired now d k then purge k d else d) (f (expired now d k)) Q.
Proof.
  unfold delete_expired_key. rewrite pbind_assoc, wp_check_expire.
  destruct (expired now d k); [|reflexivity].
  rewrite wp_with_lock, pbind_assoc, wp_dict_del, pbind_assoc, wp_delete_expire. reflexivity.
Qed.

Lemma wp_ret T d (f : C -> prog C) Q c :
  wp T d (pbind (Ret c) f) Q <-> wp T d (f c) Q.
Proof. reflexivity. Qed.

End WithParams.

(** ** Invariant and view lemmas *)

Lemma inv_empty : Inv empty_db.
Proof. split; simpl; [intros k [x Hx]; set_solver|reflexivity]. Qed.

Lemma inv_put k v d : Inv d -> Inv (put k v d).
Proof.
  intros [H1 H2]. split; simpl.
  - intros k' Hk'. destruct (decide (k = k')) as [->|].
    + rewrite lookup_insert; eauto.
    + rewrite lookup_insert_ne; auto.
  - destruct (dict d !! k) eqn:E.
    + rewrite map_size_insert_Some by eauto. auto.
    + rewrite map_size_insert_None by auto. lia.
Qed.

Lemma inv_mut k v d : Inv d -> Inv (mut k v d).
Proof.
  intros [H1 H2]. split; simpl.
  - intros k' Hk'. destruct (decide (k = k')) as [->|].
    + rewrite lookup_alter. apply fmap_is_Some; auto.
    + rewrite lookup_alter_ne; auto.
  - rewrite H2. f_equal.
    rewrite <- !size_dom, dom_alter_L. auto.
Qed.

Lemma inv_edel k d : Inv d -> Inv (edel k d).
Proof.
  intros [H1 H2]. split; simpl; auto.
  intros k' [x Hx]. apply lookup_delete_Some in Hx as [??]. eauto.
Qed.

Lemma inv_eset k t d : Inv d -> is_Some (dict d !! k) -> Inv (eset k t d).
Proof.
  intros [H1 H2] Hk. split; simpl; auto.
  intros k' [x Hx]. destruct (decide (k = k')) as [->|]; auto.
  rewrite lookup_insert_ne in Hx by auto. eauto.
Qed.

Lemma inv_purge k d : Inv d -> Inv (purge k d).
Proof.
  intros [H1 H2]. split; simpl.
  - intros k' [x Hx]. apply lookup_delete_Some in Hx as [Hne Hx].
    rewrite lookup_delete_ne by auto. eauto.
  - destruct (dict d !! k) eqn:E.
    + rewrite map_size_delete_Some by eauto.
      assert (size (dict d) <> 0%nat) by (intros Hs; apply map_size_empty_inv in Hs; rewrite Hs in E; set_solver).
      lia.
    + rewrite map_size_delete_None by auto. auto.
Qed.

(** Raw entry: value and deadline, whatever the time. *)
Definition raw (d : db) (k : bytes) : entry :=
  match dict d !! k with Some v => Some (v, exps d !! k) | None => None end.

Lemma view_raw t d k : view t d k = live t (raw d k).
Proof. reflexivity. Qed.

Lemma live_live t u e : t <= u -> live u (live t e) = live u e.
Proof.
  intros H. destruct e as [[v [dl|]]|]; simpl; auto.
  destruct (Z.ltb_spec dl t); simpl; auto.
  destruct (Z.ltb_spec dl u); auto; lia.
Qed.
Lemma live_idem t e : live t (live t e) = live t e.
Proof. apply live_live; lia. Qed.
Lemma live_view t u d k : t <= u -> live u (view t d k) = view u d k.
Proof. intros. rewrite !view_raw, live_live; auto. Qed.

Lemma raw_put k v d k' :
  raw (put k v d) k' = if decide (k' = k) then Some (v, exps d !! k) else raw d k'.
Proof.
  unfold raw, put; simpl. destruct (decide (k' = k)) as [->|].
  - rewrite lookup_insert; auto.
  - rewrite lookup_insert_ne; auto.
Qed.
Lemma raw_mut k v d k' :
  raw (mut k v d) k' = if decide (k' = k)
    then match raw d k with Some (_, e) => Some (v, e) | None => None end else raw d k'.
Proof.
  unfold raw, mut; simpl. destruct (decide (k' = k)) as [->|].
  - rewrite lookup_alter. destruct (dict d !! k); auto.
  - rewrite lookup_alter_ne; auto.
Qed.
Lemma raw_edel k d k' :
  raw (edel k d) k' = if decide (k' = k)
    then match raw d k with Some (v, _) => Some (v, None) | None => None end else raw d k'.
Proof.
  unfold raw, edel; simpl. destruct (decide (k' = k)) as [->|].
  - rewrite lookup_delete. destruct (dict d !! k); auto.
  - rewrite lookup_delete_ne; auto.
Qed.
Lemma raw_eset k t d k' :
  raw (eset k t d) k' = if decide (k' = k)
    then match raw d k with Some (v, _) => Some (v, Some t) | None => None end else raw d k'.
Proof.
  unfold raw, eset; simpl. destruct (decide (k' = k)) as [->|].
  - rewrite lookup_insert. destruct (dict d !! k); auto.
  - rewrite lookup_insert_ne; auto.
Qed.
Lemma raw_ddel k d k' :
  raw (ddel k d) k' = if decide (k' = k) then None else raw d k'.
Proof.
  unfold raw, ddel; simpl. destruct (decide (k' = k)) as [->|].
  - rewrite lookup_delete; auto.
  - rewrite lookup_delete_ne; auto.
Qed.
Lemma raw_purge k d k' :
  raw (purge k d) k' = if decide (k' = k) then None else raw d k'.
Proof.
  unfold purge. rewrite raw_edel, !raw_ddel. destruct (decide (k' = k)); [|auto].
  subst. rewrite decide_True by auto. auto.
Qed.
Lemma raw_None k d : Inv d -> dict d !! k = None -> exps d !! k = None.
Proof.
  intros [H _] E. destruct (exps d !! k) eqn:E'; auto.
  destruct (H k) as [? Hx]; [eauto|]. congruence.
Qed.

(** [view] as a case analysis. *)
Lemma view_expired now d k : Inv d -> expired now d k = true -> view now d k = None.
Proof.
  unfold expired, view. intros HI. destruct (exps d !! k) eqn:E; [|discriminate].
  intros Hl. destruct (dict d !! k); simpl; auto. rewrite Hl; auto.
Qed.
Lemma view_notexpired now d k : expired now d k = false -> view now d k = raw d k.
Proof.
  unfold expired, view, raw. destruct (dict d !! k); simpl; auto.
  destruct (exps d !! k); auto. intros ->; auto.
Qed.
