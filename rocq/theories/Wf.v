(** Lock discipline of the executors: a two-phase locking type system for effect trees.
    Soundness for interleaved executions is in Conc.v; here it is checked for every command. *)
From Verif Require Export WpTac.

(** Lock state of a command: no lock held; acquiring ([Grow]: the locks held, in increasing order, all in
    one mode); releasing. *)
Inductive lstate := Idle | Grow (m : mode) (l : list N) | Shrink (m : mode) (l : list N).
Definition grown (m : mode) (l : list N) : lstate := match l with [] => Idle | _ => Grow m l end.
Definition shrunk (m : mode) (l : list N) : lstate := match l with [] => Idle | _ => Shrink m l end.

Section WithParams.
Context {P : Setup}.

Definition canread (h : lstate) (key : bytes) : Prop := exists m l, h = Grow m l /\ lockpos key ∈ l.
Definition canwrite (h : lstate) (key : bytes) : Prop := exists l, h = Grow MW l /\ lockpos key ∈ l.

(** The lock of one of the keys [K]. *)
Definition lock_of (K : bytes -> Prop) (p : N) : Prop := exists key, K key /\ lockpos key = p.
(** [wf K u s h' h p]: started with locks [h], [p] only touches keys in [K] and takes only their locks, writes them only under their
    exclusive lock, reads values and deadlines only under their lock in some mode, or holding no lock at all (values: only if [u]),
    scans the segments and reads the counter holding no lock only if [s], acquires locks in increasing order,
    one mode, before releasing any, and returns holding [h']. *)
Inductive wf {A} (K : bytes -> Prop) (u s : bool) (h' : lstate) : lstate -> prog A -> Prop :=
| wf_Ret a : wf K u s h' h' (Ret a)
| wf_Crash h : wf K u s h' h Crash
| wf_Hang h : wf K u s h' h Hang
| wf_Now h k : (forall t, wf K u s h' h (k t)) -> wf K u s h' h (Now k)
| wf_Range h l k : (forall l', wf K u s h' h (k l')) -> wf K u s h' h (Range l k)
| wf_DGet h key k : K key -> canread h key \/ (h = Idle /\ u = true) ->
    (forall x, wf K u s h' h (k x)) -> wf K u s h' h (DGet key k)
| wf_DSet h key v k : K key -> canwrite h key ->
    (forall x, wf K u s h' h (k x)) -> wf K u s h' h (DSet key v k)
| wf_DMut h key v k : K key -> canwrite h key -> wf K u s h' h k -> wf K u s h' h (DMut key v k)
| wf_DDel h key k : K key -> canwrite h key ->
    (forall x, wf K u s h' h (k x)) -> wf K u s h' h (DDel key k)
| wf_DSeg h i k : h = Idle -> s = true -> (forall x, wf K u s h' h (k x)) -> wf K u s h' h (DSeg i k)
| wf_CntLoad h k : (exists l, h = Grow MW l) \/ (h = Idle /\ s = true) ->
    (forall x, wf K u s h' h (k x)) -> wf K u s h' h (CntLoad k)
| wf_CntStore h c k : (exists l, h = Grow MW l) -> wf K u s h' h k -> wf K u s h' h (CntStore c k)
| wf_EGet h key k : K key -> h = Idle \/ canread h key -> (forall x, wf K u s h' h (k x)) -> wf K u s h' h (EGet key k)
| wf_ESet h key t k : K key -> canwrite h key -> wf K u s h' h k -> wf K u s h' h (ESet key t k)
| wf_EDel h key k : K key -> canwrite h key ->
    (forall x, wf K u s h' h (k x)) -> wf K u s h' h (EDel key k)
| wf_Acq0 p m k : lock_of K p -> wf K u s h' (Grow m [p]) k -> wf K u s h' Idle (Acq p m k)
| wf_Acq p m l k : lock_of K p -> Forall (fun q => (q < p)%N) l ->
    wf K u s h' (Grow m (l ++ [p])) k -> wf K u s h' (Grow m l) (Acq p m k)
| wf_Rel1 p m l k : wf K u s h' (shrunk m l) k -> wf K u s h' (Grow m (p :: l)) (Rel p m k)
| wf_Rel2 p m l k : wf K u s h' (shrunk m l) k -> wf K u s h' (Shrink m (p :: l)) (Rel p m k).

Context (K : bytes -> Prop) (u s : bool).

Lemma wf_bind {A C} h1 h2 h (p : prog A) (f : A -> prog C) :
  wf K u s h1 h p -> (forall a, wf K u s h2 h1 (f a)) -> wf K u s h2 h (pbind p f).
Proof. intros H Hf. induction H; cbn; auto; constructor; auto. Qed.

Lemma wf_dict_set h key v : K key -> canwrite h key -> wf K u s h h (dict_set key v).
Proof.
  intros Hk Hw. assert (exists l, h = Grow MW l) by (destruct Hw as (l & E & _); eauto).
  unfold dict_set. constructor; auto. intros []; repeat (constructor; auto).
Qed.
Lemma wf_dict_del h key : K key -> canwrite h key -> wf K u s h h (dict_del key).
Proof.
  intros Hk Hw. assert (exists l, h = Grow MW l) by (destruct Hw as (l & E & _); eauto).
  unfold dict_del. constructor; auto. intros []; repeat (constructor; auto).
Qed.
Lemma wf_dict_get h key : K key -> canread h key \/ (h = Idle /\ u = true) -> wf K u s h h (dict_get key).
Proof. intros; constructor; auto; intros; constructor. Qed.
Lemma wf_exp_get h key : K key -> h = Idle \/ canread h key -> wf K u s h h (exp_get key).
Proof. intros; constructor; auto; intros; constructor. Qed.
Lemma wf_obj_put h key v : K key -> canwrite h key -> wf K u s h h (obj_put key v).
Proof. intros; constructor; auto; intros; constructor. Qed.
Lemma wf_now_unix h : wf K u s h h now_unix.
Proof. constructor; intros; constructor. Qed.
Lemma wf_set_expire h key t : K key -> canwrite h key -> wf K u s h h (set_expire key t).
Proof.
  intros Hk Hw. unfold set_expire. constructor; auto.
  { left. destruct Hw as (l & E & Hl). exists MW, l; auto. }
  intros []; repeat constructor; auto.
Qed.
Lemma wf_delete_expire h key : K key -> canwrite h key -> wf K u s h h (delete_expire key).
Proof. intros; constructor; auto; intros; constructor. Qed.
Lemma wf_check_expire h key : K key -> h = Idle \/ canread h key -> wf K u s h h (check_expire key).
Proof. intros; constructor; auto; intros []; repeat constructor. Qed.
Lemma wf_with_lock {A} m key (body : prog A) : K key ->
  wf K u s (Grow m [lockpos key]) (Grow m [lockpos key]) body -> wf K u s Idle Idle (with_lock m key body).
Proof.
  intros Hk H. unfold with_lock, lock, unlock. cbn. constructor; [exists key; auto|].
  eapply wf_bind; [exact H|]. intros a. cbn. constructor. constructor.
Qed.
Lemma canread_lock m key : canread (Grow m [lockpos key]) key.
Proof. exists m, [lockpos key]; split; auto. left. Qed.
Lemma canwrite_lock key : canwrite (Grow MW [lockpos key]) key.
Proof. exists [lockpos key]; split; auto. left. Qed.

Lemma sorted_locks_sorted ks : StronglySorted N.lt (sorted_locks ks).
Proof.
  unfold sorted_locks. set (l := remove_dups (lockpos <$> ks)).
  assert (Hd : NoDup (merge_sort N.le l)).
  { rewrite merge_sort_Permutation. apply NoDup_remove_dups. }
  assert (Hs : StronglySorted N.le (merge_sort N.le l)).
  { apply StronglySorted_merge_sort; [intros x y z; lia|].
    intros x y. destruct (decide (x <= y)%N); [left|right]; lia. }
  clearbody l. induction Hs; constructor; inversion Hd; subst; auto.
  rewrite Forall_forall in *. intros x Hx. specialize (H x Hx). assert (x <> a) by (intros ->; match goal with H : _ ∉ _ |- _ => apply H end; first [exact Hx | apply elem_of_list_In; exact Hx]). lia.
Qed.
Lemma sorted_locks_elem ks k : k ∈ ks -> lockpos k ∈ sorted_locks ks.
Proof.
  intros H. unfold sorted_locks. rewrite merge_sort_Permutation. apply elem_of_remove_dups.
  apply elem_of_list_fmap. eauto.
Qed.
Lemma sorted_locks_cons k ks : exists p l, sorted_locks (k :: ks) = p :: l.
Proof.
  pose proof (sorted_locks_elem (k :: ks) k ltac:(left)) as H.
  destruct (sorted_locks (k :: ks)); [inversion H|eauto].
Qed.

Lemma wf_acq_all {A} m l1 l2 (p : unit -> prog A) h' : (forall q, q ∈ l2 -> lock_of K q) -> StronglySorted N.lt (l1 ++ l2) ->
  wf K u s h' (grown m (l1 ++ l2)) (p tt) -> wf K u s h' (grown m l1) (pbind (acq_all m l2) p).
Proof.
  revert l1. induction l2 as [|x l2 IH]; intros l1 HK Hs H; cbn.
  - rewrite app_nil_r in H. auto.
  - assert (Hl : Forall (fun q => (q < x)%N) l1).
    { clear -Hs. induction l1 as [|y l1 IH]; constructor; inversion Hs; subst.
      - rewrite Forall_forall in H2. apply H2. apply in_or_app; right; left; auto.
      - auto. }
    assert (Hk : wf K u s h' (Grow m (l1 ++ [x])) (pbind (acq_all m l2) p)).
    { replace (Grow m (l1 ++ [x])) with (grown m (l1 ++ [x])) by (destruct l1; auto).
      apply IH; [intros; apply HK; right; auto|..]; rewrite <- app_assoc; auto. }
    assert (lock_of K x) by (apply HK; left). destruct l1; cbn; constructor; auto.
Qed.
Lemma wf_rel_all {A} m l (p : unit -> prog A) h' :
  wf K u s h' Idle (p tt) -> wf K u s h' (shrunk m l) (pbind (rel_all m l) p).
Proof. intros H. induction l; cbn; auto. constructor. auto. Qed.
Lemma sorted_locks_of ks q : (forall k, k ∈ ks -> K k) -> q ∈ sorted_locks ks -> lock_of K q.
Proof.
  intros H Hq. unfold sorted_locks in Hq. rewrite merge_sort_Permutation in Hq. rewrite !elem_of_remove_dups in Hq. apply elem_of_list_fmap in Hq as (k & -> & Hk). exists k. auto.
Qed.
Lemma wf_with_mlock {A} m ks (body : prog A) : (forall k, k ∈ ks -> K k) ->
  wf K u s (grown m (sorted_locks ks)) (grown m (sorted_locks ks)) body ->
  wf K u s Idle Idle (with_mlock m ks body).
Proof.
  intros HK H. unfold with_mlock, mlock, munlock.
  change Idle with (grown m []) at 2. apply wf_acq_all; [intros; eapply sorted_locks_of; eauto|apply sorted_locks_sorted|]. cbn.
  eapply wf_bind; [exact H|]. intros a.
  destruct (sorted_locks ks) as [|p l]; cbn; [constructor|].
  constructor. apply wf_rel_all. constructor.
Qed.
Lemma canread_mlock m k ks : k ∈ ks -> canread (grown m (sorted_locks ks)) k.
Proof.
  intros H. pose proof (sorted_locks_elem ks k H) as Hl. unfold grown.
  destruct (sorted_locks ks); [inversion Hl|]. exists m; eauto.
Qed.
Lemma canwrite_mlock k ks : k ∈ ks -> canwrite (grown MW (sorted_locks ks)) k.
Proof.
  intros H. pose proof (sorted_locks_elem ks k H) as Hl. unfold grown.
  destruct (sorted_locks ks); [inversion Hl|]. exists (n :: l); eauto.
Qed.
Lemma canwrite_read h k : canwrite h k -> canread h k.
Proof. intros (l & E & H). exists MW, l; auto. Qed.

Lemma wf_delete_expired_key key : K key -> wf K u s Idle Idle (delete_expired_key key).
Proof.
  intros Hk. unfold delete_expired_key. eapply wf_bind; [apply wf_check_expire; auto|].
  intros []; [|constructor]. apply wf_with_lock; [auto|].
  eapply wf_bind; [apply wf_dict_del; auto using canwrite_lock|]. intros _.
  eapply wf_bind; [apply wf_delete_expire; auto using canwrite_lock|]. intros _. constructor.
Qed.
End WithParams.

(** Key membership side conditions. *)
Ltac wf_key :=
  solve [ assumption
        | rewrite ?elem_of_cons; tauto
        | cbn; rewrite ?elem_of_cons; tauto
        | set_solver ].
Ltac wf_keys :=
  solve [ assumption
        | let x := fresh in let H := fresh in intros x H; repeat (apply elem_of_cons in H as [->|H]); first [wf_key | auto; fail | exfalso; inversion H; fail] ].
Ltac wf_can :=
  solve [ assumption
        | apply canwrite_lock | apply canread_lock
        | apply canwrite_mlock; wf_key | apply canread_mlock; wf_key
        | left; wf_can | apply canwrite_read; wf_can ].
Ltac wf_atom :=
  first
  [ apply wf_dict_set; [wf_key|wf_can]
  | apply wf_dict_del; [wf_key|wf_can]
  | apply wf_dict_get; [wf_key|first [wf_can | right; split; reflexivity]]
  | apply wf_exp_get; [wf_key|first [left; reflexivity|right; wf_can]]
  | apply wf_obj_put; [wf_key|wf_can]
  | apply wf_now_unix
  | apply wf_set_expire; [wf_key|wf_can]
  | apply wf_delete_expire; [wf_key|wf_can]
  | apply wf_delete_expired_key; wf_key ].
Ltac wf_step :=
  match goal with
  | |- wf _ _ _ _ _ (Ret _) => apply wf_Ret
  | |- wf _ _ _ _ _ Crash => apply wf_Crash
  | |- wf _ _ _ _ _ Hang => apply wf_Hang
  | |- wf _ _ _ _ _ (Range _ _) => apply wf_Range; intros ?
  | |- wf _ _ _ _ _ (with_lock _ _ _) => apply wf_with_lock; [wf_key|]
  | |- wf _ _ _ _ _ (with_mlock _ _ _) => apply wf_with_mlock; [wf_keys|]
  | |- wf _ _ _ _ _ (let '(_, _) := ?x in _) => destruct x
  | |- wf _ _ _ _ _ (match ?x with _ => _ end) => destruct x
  | |- wf _ _ _ _ _ _ => wf_atom
  | H : context [wf] |- wf _ _ _ _ _ _ => eapply H
  | |- wf _ _ _ _ _ (pbind _ _) => eapply wf_bind; [|intros ?]
  | |- forall _, _ => intros ?
  | |- wf _ _ _ _ _ _ => progress cbv zeta beta
  end.
Ltac wf_go := repeat wf_step.
