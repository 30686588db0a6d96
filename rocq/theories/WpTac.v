(** Proof machinery: automation for command specifications. *)
From Verif Require Export Wp.

Section WithParams.
Context {P : Setup}.

Lemma wp_bare {A} T d (p : prog A) Q : wp T d p Q <-> wp T d (pbind p Ret) Q.
Proof. rewrite wp_bind. split; apply wp_mono; intros []; auto. Qed.

Lemma wp_lock_bare {A} T d m k (body : prog A) Q :
  wp T d (with_lock m k body) Q <-> wp T d body Q.
Proof. rewrite wp_bare, wp_with_lock, <- wp_bare. reflexivity. Qed.
Lemma wp_mlock_bare {A} T d m ks (body : prog A) Q :
  wp T d (with_mlock m ks body) Q <-> wp T d body Q.
Proof. rewrite wp_bare, wp_with_mlock, <- wp_bare. reflexivity. Qed.

(** [sim now d1 d]: [d1] is [d] with some expired keys removed. *)
Definition sim (now : Z) (d1 d : db) : Prop :=
  forall k, raw d1 k = raw d k \/ (raw d1 k = None /\ view now d k = None).

Lemma sim_refl now d : sim now d d.
Proof. left; auto. Qed.
Lemma sim_view now d1 d t k : sim now d1 d -> now <= t -> view t d1 k = view t d k.
Proof.
  intros H Ht. destruct (H k) as [E|[E1 E2]]; rewrite !view_raw in *.
  - congruence.
  - rewrite E1. rewrite <- (live_live now t (raw d k)) by auto. rewrite E2. auto.
Qed.
Lemma sim_trans now d1 d2 d3 : sim now d1 d2 -> sim now d2 d3 -> sim now d1 d3.
Proof.
  intros H1 H2 k. destruct (H1 k) as [E|[E1 E2]].
  - rewrite E. auto.
  - right. split; auto. rewrite <- (sim_view now d2 d3) by (auto; lia). auto.
Qed.
Lemma sim_purge now d k : Inv d -> expired now d k = true -> sim now (purge k d) d.
Proof.
  intros HI He k'. rewrite raw_purge. destruct (decide (k' = k)) as [->|]; auto.
  right. split; auto. apply view_expired; auto.
Qed.

Lemma expired_raw now d k : Inv d -> (expired now d k = false <-> raw d k = view now d k).
Proof.
  intros HI. split.
  - intros. symmetry. apply view_notexpired; auto.
  - unfold expired, view, raw. destruct (exps d !! k) eqn:E; auto.
    destruct HI as [HI _]. destruct (HI k) as [v Hv]; [eauto|]. rewrite Hv. simpl.
    destruct (z <? now); congruence.
Qed.

(** Effect of the lazy deletion that starts every command. *)
Lemma wp_purge_sim {C} now d k (f : bool -> prog C) Q :
  Inv d ->
  (forall d1 b, Inv d1 -> sim now d1 d -> expired now d1 k = false ->
     raw d1 k = view now d k -> (b = true -> view now d k = None) ->
     (forall k', k' <> k -> raw d1 k' = raw d k') ->
     wp (eq now) d1 (f b) Q) ->
  wp (eq now) d (pbind (delete_expired_key k) f) Q.
Proof.
  intros HI H. rewrite wp_purge. destruct (expired now d k) eqn:E.
  - apply H; auto using inv_purge, sim_purge.
    + unfold expired, purge; simpl. rewrite lookup_delete. auto.
    + rewrite raw_purge, decide_True by auto. symmetry. apply view_expired; auto.
    + intros. apply view_expired; auto.
    + intros. rewrite raw_purge, decide_False; auto.
  - apply H; auto using sim_refl; try discriminate.
    symmetry. apply view_notexpired; auto.
Qed.

Lemma raw_dict d k e : raw d k = e -> dict d !! k = match e with Some (v, _) => Some v | None => None end.
Proof. intros <-. unfold raw. destruct (dict d !! k); auto. Qed.
Lemma raw_exps d k e : Inv d -> raw d k = e -> exps d !! k = match e with Some (_, t) => t | None => None end.
Proof.
  intros HI <-. unfold raw. destruct (dict d !! k) eqn:E; auto using raw_None.
Qed.

(** From a weakest precondition to [implements_when]. *)
Lemma impl_single (pre : Z -> keyspace -> Prop) cmd k F :
  (forall now d, Inv d -> pre now (view now d) ->
     wp (eq now) d (exec_in_db cmd) (fun out =>
       exists r d', out = Done r d' /\ Inv d' /\ F now (view now d k) r (raw d' k) /\
         forall k', k' <> k -> raw d' k' = raw d k')) ->
  implements_when pre cmd (single k F).
Proof.
  intros H now d out HI Hp Hr. specialize (H now d HI Hp).
  eapply wp_sound in H; [|exact Hr]. destruct H as (r & d' & -> & HI' & HF & Hfr).
  exists r, d', (fun k' => if decide (k' = k) then raw d' k else view now d k').
  split; [auto|]. split; [auto|]. split.
  - exists (raw d' k). split; auto. split.
    + rewrite decide_True; auto.
    + intros k' Hk'. rewrite decide_False; auto.
  - intros t k' Ht. destruct (decide (k' = k)) as [->|]; auto.
    rewrite live_view by auto. rewrite !view_raw, Hfr; auto.
Qed.

(** Multi-key commands: the new keyspace is what is visible right after. *)
Lemma impl_multi (pre : Z -> db -> Prop) cmd spec :
  (forall now d, Inv d -> pre now d ->
     wp (eq now) d (exec_in_db cmd) (fun out =>
       exists r d', out = Done r d' /\ Inv d' /\ spec now (view now d) r (view now d'))) ->
  implements_on pre cmd spec.
Proof.
  intros H now d out HI Hp Hr. specialize (H now d HI Hp).
  eapply wp_sound in H; [|exact Hr]. destruct H as (r & d' & -> & HI' & Hs).
  exists r, d', (view now d'). split; [auto|]. split; [auto|]. split; [auto|].
  intros t k Ht. rewrite live_view; auto.
Qed.

Lemma impl_single_fun (pre : Z -> keyspace -> Prop) cmd k f :
  (forall now d, Inv d -> pre now (view now d) ->
     wp (eq now) d (exec_in_db cmd) (fun out =>
       exists r d', out = Done r d' /\ Inv d' /\ (r, raw d' k) = f now (view now d k) /\
         forall k', k' <> k -> raw d' k' = raw d k')) ->
  implements_when pre cmd (single_fun k f).
Proof.
  intros H. unfold single_fun.
  apply (impl_single pre cmd k (fun now e r e' => (r, e') = f now e)). exact H.
Qed.

Lemma exec_named n args s ex :
  named n s -> lookup_cmd (B s) = Some ex -> exec_in_db (n :: args) = ex (n :: args).
Proof. unfold named, exec_in_db. intros -> ->. auto. Qed.

End WithParams.

Lemma dict_put k v d : dict (put k v d) !! k = Some v.
Proof. apply lookup_insert. Qed.
Lemma dict_put_ne k k' v d : k' <> k -> dict (put k v d) !! k' = dict d !! k'.
Proof. intros. apply lookup_insert_ne; auto. Qed.
Lemma dict_mut k v d : dict (mut k v d) !! k = match dict d !! k with Some _ => Some v | None => None end.
Proof. unfold mut; simpl. rewrite lookup_alter. destruct (dict d !! k); auto. Qed.
Lemma dict_mut_ne k k' v d : k' <> k -> dict (mut k v d) !! k' = dict d !! k'.
Proof. intros. apply lookup_alter_ne; auto. Qed.
Lemma dict_ddel k d : dict (ddel k d) !! k = None.
Proof. apply lookup_delete. Qed.
Lemma dict_ddel_ne k k' d : k' <> k -> dict (ddel k d) !! k' = dict d !! k'.
Proof. intros. apply lookup_delete_ne; auto. Qed.
Lemma dict_edel k d : dict (edel k d) = dict d.
Proof. auto. Qed.
Lemma dict_eset k t d : dict (eset k t d) = dict d.
Proof. auto. Qed.
Lemma exps_put k v d : exps (put k v d) = exps d.
Proof. auto. Qed.
Lemma exps_mut k v d : exps (mut k v d) = exps d.
Proof. auto. Qed.
Lemma exps_ddel k d : exps (ddel k d) = exps d.
Proof. auto. Qed.
Lemma exps_edel k d : exps (edel k d) !! k = None.
Proof. apply lookup_delete. Qed.
Lemma exps_edel_ne k k' d : k' <> k -> exps (edel k d) !! k' = exps d !! k'.
Proof. intros. apply lookup_delete_ne; auto. Qed.
Lemma exps_eset k t d : exps (eset k t d) !! k = Some t.
Proof. apply lookup_insert. Qed.

Global Arguments put : simpl never.
Global Arguments mut : simpl never.
Global Arguments ddel : simpl never.
Global Arguments edel : simpl never.
Global Arguments eset : simpl never.
Global Arguments purge : simpl never.
Global Arguments raw : simpl never.
Global Arguments view : simpl never.

(** Simplify lookups in database expressions. *)
Ltac dbsimp :=
  repeat match goal with
    | |- context [dict (put ?k ?v ?d) !! ?k] => rewrite (dict_put k v d)
    | |- context [dict (mut ?k ?v ?d) !! ?k] => rewrite (dict_mut k v d)
    | |- context [dict (ddel ?k ?d) !! ?k] => rewrite (dict_ddel k d)
    | |- context [dict (edel ?k ?d)] => rewrite (dict_edel k d)
    | |- context [dict (eset ?k ?t ?d)] => rewrite (dict_eset k t d)
    | |- context [exps (put ?k ?v ?d)] => rewrite (exps_put k v d)
    | |- context [exps (mut ?k ?v ?d)] => rewrite (exps_mut k v d)
    | |- context [exps (ddel ?k ?d)] => rewrite (exps_ddel k d)
    | |- context [exps (edel ?k ?d) !! ?k] => rewrite (exps_edel k d)
    | |- context [exps (eset ?k ?t ?d) !! ?k] => rewrite (exps_eset k t d)
    | H : ?k' <> ?k |- context [dict (put ?k ?v ?d) !! ?k'] => rewrite (dict_put_ne k k' v d H)
    | H : ?k' <> ?k |- context [dict (mut ?k ?v ?d) !! ?k'] => rewrite (dict_mut_ne k k' v d H)
    | H : ?k' <> ?k |- context [dict (ddel ?k ?d) !! ?k'] => rewrite (dict_ddel_ne k k' d H)
    | H : ?k' <> ?k |- context [exps (edel ?k ?d) !! ?k'] => rewrite (exps_edel_ne k k' d H)
    | H : dict ?d !! ?k = _ |- context [dict ?d !! ?k] => rewrite H
    | H : exps ?d !! ?k = _ |- context [exps ?d !! ?k] => rewrite H
    end.

(** One step of symbolic execution at a fixed clock. *)
Ltac wp1 :=
  lazymatch goal with
  | |- wp _ _ (with_lock _ _ _) _ => rewrite wp_lock_bare
  | |- wp _ _ (with_mlock _ _ _) _ => rewrite wp_mlock_bare
  | |- wp _ _ (pbind (with_lock _ _ _) _) _ => rewrite wp_with_lock
  | |- wp _ _ (pbind (with_mlock _ _ _) _) _ => rewrite wp_with_mlock
  | |- wp _ _ (pbind (pbind _ _) _) _ => rewrite pbind_assoc
  | |- wp _ _ (pbind (dict_set _ _) _) _ => rewrite wp_dict_set
  | |- wp _ _ (pbind (dict_del _) _) _ => rewrite wp_dict_del
  | |- wp _ _ (pbind (dict_get _) _) _ => rewrite wp_dict_get
  | |- wp _ _ (pbind (exp_get _) _) _ => rewrite wp_exp_get
  | |- wp _ _ (pbind (obj_put _ _) _) _ => rewrite wp_obj_put
  | |- wp _ _ (pbind (delete_expire _) _) _ => rewrite wp_delete_expire
  | |- wp _ _ (pbind (set_expire _ _) _) _ => rewrite wp_set_expire
  | |- wp _ _ (pbind now_unix _) _ => rewrite wp_now
  | |- wp _ _ (pbind (Ret _) _) _ => cbn [pbind hasb]
  | |- wp _ _ (Ret _) _ => cbn [wp]
  | |- _ => progress cbn [pbind wp hasb]
  end.
Ltac wps := repeat (wp1; dbsimp).

Ltac rawsimp :=
  repeat match goal with
    | |- context [raw (put ?k ?v ?d) ?k'] => rewrite (raw_put k v d k')
    | |- context [raw (mut ?k ?v ?d) ?k'] => rewrite (raw_mut k v d k')
    | |- context [raw (edel ?k ?d) ?k'] => rewrite (raw_edel k d k')
    | |- context [raw (eset ?k ?t ?d) ?k'] => rewrite (raw_eset k t d k')
    | |- context [raw (ddel ?k ?d) ?k'] => rewrite (raw_ddel k d k')
    | |- context [raw (purge ?k ?d) ?k'] => rewrite (raw_purge k d k')
    | |- context [decide (?k = ?k)] => rewrite (decide_True (P := k = k)) by (exact eq_refl)
    | H : ?k' <> ?k |- context [decide (?k' = ?k)] => rewrite (decide_False (P := k' = k)) by (exact H)
    | H : raw ?d ?k = _ |- context [raw ?d ?k] => rewrite H
    | |- _ => progress dbsimp
    end.

Global Hint Resolve inv_put inv_mut inv_edel inv_purge : inv.
Global Hint Extern 1 (Inv (edel ?k (ddel ?k ?d))) => change (Inv (purge k d)); apply inv_purge : inv.
Global Hint Extern 1 (Inv (eset _ _ _)) => apply inv_eset; [|dbsimp; eauto] : inv.

(** Decide equalities between literal keywords. *)
Ltac beqs :=
  repeat match goal with
    | |- context [beq (B ?a) (B ?b)] =>
        let v := eval vm_compute in (beq (B a) (B b)) in
        change (beq (B a) (B b)) with v
    end; cbv iota beta; cbn [orb andb negb].

(** Resolve the executor of a named command. *)
Ltac exec_cmd H :=
  erewrite (exec_named _ _ _ _ H) by reflexivity.

(** Start: purge the key [k], then case on its visible entry. *)
Ltac purge_k :=
  apply wp_purge_sim; [assumption|];
  let d1 := fresh "d1" in let b := fresh "b" in
  intros d1 b ?HI1 ?Hsim ?Hexp ?Hraw ?Hb ?Hfr.
Ltac ent :=
  match goal with
  | Hraw : raw ?d1 ?k = view ?now ?d ?k, HI : Inv ?d1 |- _ =>
      let HD := fresh "HD" in let HE := fresh "HE" in
      pose proof (raw_dict _ _ _ Hraw) as HD;
      pose proof (raw_exps _ _ _ HI Hraw) as HE;
      let v := fresh "v" in let dl := fresh "dl" in
      destruct (view now d k) as [[v dl]|] eqn:?Hview
  end.
Ltac fin :=
  eexists _, _; split; [reflexivity|]; split; [auto 10 with inv|]; split;
  [rawsimp; try reflexivity | intros ?k' ?Hk'; rawsimp; auto].
