(** Expired keys beside other commands: the programs. *)
From Verif Require Export SpecExpired MemoryMain.

(** While the deadline [t0] of [k0] has passed and nobody writes under [k0]: [g] says that the value is known to be gone; the program ends only as [Q] says. *)
Inductive sees {P : Setup} {A} (T : Z -> Prop) (k0 : bytes) (t0 : Z) (Q : bool -> A -> Prop) : bool -> prog A -> Prop :=
| E_ret g a : Q g a -> sees T k0 t0 Q g (Ret a)
| E_crash g : sees T k0 t0 Q g Crash
| E_hang g : sees T k0 t0 Q g Hang
| E_now g k : (forall t, T t -> sees T k0 t0 Q g (k t)) -> sees T k0 t0 Q g (Now k)
| E_range g l k : (forall l', sees T k0 t0 Q g (k l')) -> sees T k0 t0 Q g (Range l k)
| E_dget g key k : (forall x, (key = k0 -> g = true -> x = None) -> sees T k0 t0 Q g (k x)) -> sees T k0 t0 Q g (DGet key k)
| E_dset g key v k : key <> k0 -> (forall x, sees T k0 t0 Q g (k x)) -> sees T k0 t0 Q g (DSet key v k)
| E_dmut g key v k : key <> k0 -> sees T k0 t0 Q g k -> sees T k0 t0 Q g (DMut key v k)
| E_ddel g key k : (forall x, sees T k0 t0 Q (if decide (key = k0) then true else g) (k x)) -> sees T k0 t0 Q g (DDel key k)
| E_dseg g i k : (forall l, sees T k0 t0 Q g (k l)) -> sees T k0 t0 Q g (DSeg i k)
| E_cntload g k : (forall c, sees T k0 t0 Q g (k c)) -> sees T k0 t0 Q g (CntLoad k)
| E_cntstore g c k : sees T k0 t0 Q g k -> sees T k0 t0 Q g (CntStore c k)
| E_eget g key k : (forall x, (key = k0 -> x = None \/ x = Some t0) -> sees T k0 t0 Q (if decide (key = k0) then match x with None => true | _ => g end else g) (k x)) -> sees T k0 t0 Q g (EGet key k)
| E_eset g key t k : key <> k0 -> sees T k0 t0 Q g k -> sees T k0 t0 Q g (ESet key t k)
| E_edel g key k : (key = k0 -> g = true) -> (forall x, sees T k0 t0 Q g (k x)) -> sees T k0 t0 Q g (EDel key k)
| E_acq g pos m k : sees T k0 t0 Q g k -> sees T k0 t0 Q g (Acq pos m k)
| E_rel g pos m k : sees T k0 t0 Q g k -> sees T k0 t0 Q g (Rel pos m k).

Section WithParams.
Context {P : Setup} (T : Z -> Prop) (k0 : bytes) (t0 : Z) (HT : forall now, T now -> t0 < now).
Notation sees := (sees T k0 t0).
Notation any := (fun _ _ => True).
Lemma sees_bind {A C} Q1 Q g (p : prog A) (f : A -> prog C) : sees Q1 g p -> (forall g a, Q1 g a -> sees Q g (f a)) -> sees Q g (pbind p f).
Proof. intros H Hf. induction H; cbn; auto; constructor; auto. Qed.
Lemma sees_weaken {A} (Q1 Q : bool -> A -> Prop) g (p : prog A) : sees Q1 g p -> (forall g a, Q1 g a -> Q g a) -> sees Q g p.
Proof. intros H Hf. induction H; constructor; auto. Qed.
Lemma any_bind {A C} g (p : prog A) (f : A -> prog C) : sees any g p -> (forall g a, sees any g (f a)) -> sees any g (pbind p f).
Proof. intros H Hf. eapply sees_bind; [exact H|auto]. Qed.
Lemma may_sees {A} W D (Q : bool -> A -> Prop) g (p : prog A) : (forall g a, Q g a) -> may W D p -> ~ W k0 -> ~ D k0 -> sees Q g p.
Proof.
  intros HQ H NW ND. revert g. induction H; intros g; constructor; auto; intros ->; contradiction.
Qed.
(** The test for expiry. *)
Lemma sees_dek g key : sees (fun g' (b : bool) => (key = k0 -> g' = true) /\ (g = true -> g' = true)) g (delete_expired_key key).
Proof.
  unfold delete_expired_key, check_expire. cbn. constructor. intros x Hx. destruct (decide (key = k0)) as [->|Hn].
  - destruct x as [t|]; [|constructor; auto]. destruct (Hx eq_refl) as [?|[= ->]]; [discriminate|]. cbn. constructor. intros now Hnow. specialize (HT _ Hnow).
    replace (t0 <? now) with true by (symmetry; apply Z.ltb_lt; auto). cbn. constructor. constructor. intros b. rewrite decide_True by auto. destruct b; cbn; repeat (constructor; auto; intros).
  - destruct x as [t|]; cbn; [|constructor; split; [intros; contradiction|auto]]. constructor. intros now _. destruct (t <? now); [|constructor; split; [intros; contradiction|auto]].
    cbn. constructor. constructor. intros b. rewrite decide_False by auto. destruct b; cbn; repeat (constructor; intros; try contradiction; auto).
Qed.
Lemma an_dek g key : sees any g (delete_expired_key key).
Proof. eapply sees_weaken; [apply sees_dek|auto]. Qed.
(** ** The other parts of the reading commands *)
Lemma an_with_lock {A} g m key (p : prog A) : sees any g p -> sees any g (with_lock m key p).
Proof. intros H. unfold with_lock, lock, unlock. cbn. constructor. apply any_bind; auto. intros g' a. repeat constructor. Qed.
Lemma an_acq_all g m l : sees any g (acq_all m l).
Proof. induction l; constructor; auto. Qed.
Lemma an_rel_all g m l : sees any g (rel_all m l).
Proof. induction l; constructor; auto. Qed.
Lemma an_with_mlock {A} g m keys (p : prog A) : (forall g, sees any g p) -> sees any g (with_mlock m keys p).
Proof.
  intros H. unfold with_mlock, mlock, munlock. apply any_bind; [apply an_acq_all|]. intros ? _. apply any_bind; auto. intros ? a. apply any_bind; [apply an_rel_all|]. intros; constructor; auto.
Qed.
Lemma an_dict_get g key : sees any g (dict_get key).
Proof. constructor. intros; constructor; auto. Qed.
Lemma an_exp_get g key : sees any g (exp_get key).
Proof. constructor. intros; constructor; auto. Qed.
Lemma an_now g : sees any g now_unix.
Proof. constructor. intros; constructor; auto. Qed.
Lemma an_draw_many g n keys : sees any g (draw_many n keys).
Proof. revert g. induction n as [|n IH]; intros g; cbn; constructor; auto. intros [|x l]; [constructor; auto|]. apply any_bind; auto. intros; constructor; auto. Qed.
Lemma an_random_keys g sz keys c : sees any g (random_keys sz keys c).
Proof.
  unfold random_keys. repeat match goal with |- sees _ _ (if ?x then _ else _) => destruct x end; try (constructor; auto); try apply an_draw_many. intros; constructor; auto.
Qed.
Lemma an_exists_loop g ks n : sees any g (exists_loop ks n).
Proof.
  revert g n. induction ks as [|k ks IH]; intros g n; cbn [exists_loop]; [constructor; auto|]. apply any_bind; [apply an_dek|]. intros g' []; auto.
  apply any_bind; [|auto]. apply an_with_lock. apply any_bind; [apply an_dict_get|]. intros; constructor; auto.
Qed.
Lemma an_mget_loop g ks l : sees any g (mget_loop ks l).
Proof.
  revert g l. induction ks as [|k ks IH]; intros g l; cbn [mget_loop]; [constructor; auto|]. apply any_bind; [apply an_dek|]. intros g' []; auto.
  apply any_bind; [|auto]. apply an_with_lock. apply any_bind; [apply an_dict_get|]. intros ? [[]|]; constructor; auto.
Qed.
Lemma an_live_keys g ks acc : sees any g (live_keys ks acc).
Proof. revert g acc. induction ks as [|k ks IH]; intros g acc; cbn [live_keys]; [constructor; auto|]. apply any_bind; [apply an_dek|]. auto. Qed.
Lemma an_read_sets g m ks acc : sees any g (read_sets m ks acc).
Proof. revert g acc. induction ks as [|k ks IH]; intros g acc; cbn [read_sets]; [constructor; auto|]. apply any_bind; [apply an_dict_get|]. intros ? [[]|]; auto; constructor; auto. Qed.
Lemma an_keys_loop g p ks : sees any g (keys_loop p ks).
Proof.
  revert g. induction ks as [|k ks IH]; intros g; cbn [keys_loop]; [constructor; auto|]. apply any_bind; [apply an_dek|]. intros g' []; auto.
  repeat (match goal with |- sees _ _ (match ?x with _ => _ end) => destruct x end); auto; try constructor. apply any_bind; auto. intros; constructor; auto.
Qed.
Lemma an_keys_fill g n i c : sees any g (keys_fill n i c).
Proof.
  revert g i c. induction n as [|n IH]; intros; cbn [keys_fill]; [repeat (match goal with |- sees _ _ (match ?x with _ => _ end) => destruct x end); constructor; auto|].
  constructor. intros l. repeat (match goal with |- sees _ _ (match ?x with _ => _ end) => destruct x end); try constructor. apply any_bind; auto. intros; constructor; auto.
Qed.
Ltac any_step :=
  match goal with
  | |- sees _ _ (Ret _) => apply E_ret; exact I
  | |- sees _ _ Crash => apply E_crash
  | |- sees _ _ Hang => apply E_hang
  | |- sees _ _ (Range _ _) => apply E_range; intros ?
  | |- sees _ _ (CntLoad _) => apply E_cntload; intros ?
  | |- sees _ _ (with_lock _ _ _) => apply an_with_lock
  | |- sees _ _ (with_mlock _ _ _) => apply an_with_mlock; intros ?
  | |- sees _ _ (let '(_, _) := ?x in _) => destruct x
  | |- sees _ _ (match ?x with _ => _ end) => destruct x
  | |- sees _ _ _ => first [apply an_dict_get|apply an_exp_get|apply an_now|apply an_dek|apply an_random_keys|apply an_exists_loop|apply an_mget_loop
      |apply an_live_keys|apply an_read_sets|apply an_keys_loop|apply an_keys_fill]
  | |- sees _ _ (pbind _ _) => apply any_bind; [|intros ? ?]
  | |- forall _, _ => intros ?
  | |- sees _ _ _ => progress cbv zeta beta
  | |- sees _ _ _ => progress wf_unf
  end.
Lemma any_cmd g cmd : reading cmd -> sees any g (exec_in_db cmd).
Proof.
  intros H. destruct cmd as [|n args]; [constructor|]. unfold reading in H. unfold exec_in_db. destruct (lookup_cmd (to_lower (str n))) as [ex|] eqn:E; [|constructor; exact I].
  destruct H as [H|H]; [|discriminate]. remember (to_lower (str n)) as nm eqn:En. clear En.
  unfold read_names in H. cbn [map] in H.
  repeat (apply elem_of_cons in H as [H|H]; [rewrite H in E; match type of E with ?l = Some _ => let r := eval hnf in l in change (r = Some ex) in E end; injection E as <-; repeat first [any_step|progress read_unf]|]). inversion H.
Qed.
End WithParams.
