(** Programs that differ in counters only; all commands but KEYS are such that the counter has no influence. *)
From Verif Require Export WfCmds.

Section WithParams.
Context {P : Setup}.
(** [eqc p q]: the same accesses, except for the numbers stored in the counter; whatever either loads from it, they go on alike. *)
Inductive eqc {A} : prog A -> prog A -> Prop :=
| Q_ret a : eqc (Ret a) (Ret a)
| Q_crash : eqc Crash Crash
| Q_hang : eqc Hang Hang
| Q_now k k' : (forall x, eqc (k x) (k' x)) -> eqc (Now k) (Now k')
| Q_range l k k' : (forall x, eqc (k x) (k' x)) -> eqc (Range l k) (Range l k')
| Q_dget key k k' : (forall x, eqc (k x) (k' x)) -> eqc (DGet key k) (DGet key k')
| Q_dset key v k k' : (forall x, eqc (k x) (k' x)) -> eqc (DSet key v k) (DSet key v k')
| Q_dmut key v k k' : eqc k k' -> eqc (DMut key v k) (DMut key v k')
| Q_ddel key k k' : (forall x, eqc (k x) (k' x)) -> eqc (DDel key k) (DDel key k')
| Q_dseg i k k' : (forall x, eqc (k x) (k' x)) -> eqc (DSeg i k) (DSeg i k')
| Q_cntload k k' : (forall x x', eqc (k x) (k' x')) -> eqc (CntLoad k) (CntLoad k')
| Q_cntstore n n' k k' : eqc k k' -> eqc (CntStore n k) (CntStore n' k')
| Q_eget key k k' : (forall x, eqc (k x) (k' x)) -> eqc (EGet key k) (EGet key k')
| Q_eset key t k k' : eqc k k' -> eqc (ESet key t k) (ESet key t k')
| Q_edel key k k' : (forall x, eqc (k x) (k' x)) -> eqc (EDel key k) (EDel key k')
| Q_acq pos m k k' : eqc k k' -> eqc (Acq pos m k) (Acq pos m k')
| Q_rel pos m k k' : eqc k k' -> eqc (Rel pos m k) (Rel pos m k').
Lemma eqc_sym {A} (p q : prog A) : eqc p q -> eqc q p.
Proof. induction 1; constructor; auto. Qed.
Definition blind {A} (p : prog A) : Prop := eqc p p.
Lemma eqc_bind {A C} (p q : prog A) (f g : A -> prog C) : eqc p q -> (forall a, eqc (f a) (g a)) -> eqc (pbind p f) (pbind q g).
Proof. intros H Hf. induction H; cbn; try (constructor; auto; fail). auto. Qed.
Lemma blind_bind {A C} (p : prog A) (f : A -> prog C) : blind p -> (forall a, blind (f a)) -> blind (pbind p f).
Proof. apply eqc_bind. Qed.
Lemma blind_ret {A} (a : A) : blind (Ret a). Proof. constructor. Qed.
Lemma blind_crash {A} : blind (@Crash A). Proof. constructor. Qed.
Lemma blind_hang {A} : blind (@Hang A). Proof. constructor. Qed.
Lemma blind_range {A} l (k : list bytes -> prog A) : (forall x, blind (k x)) -> blind (Range l k). Proof. constructor; auto. Qed.
Lemma blind_now {A} (k : Z -> prog A) : (forall x, blind (k x)) -> blind (Now k). Proof. constructor; auto. Qed.
Lemma blind_exp_get key : blind (exp_get key). Proof. repeat constructor. Qed.
Lemma blind_dict_get key : blind (dict_get key). Proof. repeat constructor. Qed.
Lemma blind_obj_put key v : blind (obj_put key v). Proof. repeat constructor. Qed.
Lemma blind_now_unix : blind now_unix. Proof. repeat constructor. Qed.
Lemma blind_dict_set key v : blind (dict_set key v).
Proof. constructor. intros []; repeat constructor. Qed.
Lemma blind_dict_del key : blind (dict_del key).
Proof. constructor. intros []; repeat constructor. Qed.
Lemma blind_delete_expire key : blind (delete_expire key).
Proof. constructor. intros; constructor. Qed.
Lemma blind_set_expire key t : blind (set_expire key t).
Proof. constructor. intros []; repeat constructor. Qed.
Lemma blind_acq_all m l : blind (acq_all m l).
Proof. induction l; cbn; constructor; auto. Qed.
Lemma blind_rel_all m l : blind (rel_all m l).
Proof. induction l; cbn; constructor; auto. Qed.
Lemma blind_with_lock {A} m key (p : prog A) : blind p -> blind (with_lock m key p).
Proof. intros H. constructor. apply blind_bind; auto. intros a. repeat constructor. Qed.
Lemma blind_with_mlock {A} m ks (p : prog A) : blind p -> blind (with_mlock m ks p).
Proof.
  intros H. apply blind_bind; [apply blind_acq_all|]. intros _. apply blind_bind; auto. intros a. apply blind_bind; [apply blind_rel_all|]. intros; constructor.
Qed.
Lemma blind_check_expire key : blind (check_expire key).
Proof. constructor. intros [t|]; [constructor; intros now|constructor]. constructor. Qed.
Lemma blind_dek key : blind (delete_expired_key key).
Proof.
  apply blind_bind; [apply blind_check_expire|]. intros []; [|constructor]. 
  repeat first [apply blind_with_lock | apply blind_bind; [first [apply blind_dict_del|apply blind_delete_expire|apply blind_with_lock]|intros ?] | apply blind_dict_del | apply blind_delete_expire | apply blind_ret].
Qed.
End WithParams.

Ltac blind_atom := first [apply blind_exp_get | apply blind_dict_get | apply blind_dict_set | apply blind_dict_del | apply blind_obj_put | apply blind_now_unix | apply blind_delete_expire
  | apply blind_set_expire | apply blind_check_expire | apply blind_dek].
Ltac blind_step :=
  match goal with
  | |- blind (Ret _) => apply blind_ret
  | |- blind Crash => apply blind_crash
  | |- blind Hang => apply blind_hang
  | |- blind (Now _) => apply blind_now; intros ?
  | |- blind (Range _ _) => apply blind_range; intros ?
  | |- blind (with_lock _ _ _) => apply blind_with_lock
  | |- blind (with_mlock _ _ _) => apply blind_with_mlock
  | |- blind (let '(_, _) := ?x in _) => destruct x
  | |- blind (match ?x with _ => _ end) => destruct x
  | |- blind _ => blind_atom
  | |- blind (pbind _ _) => apply blind_bind; [|intros ?]
  | H : context [blind] |- blind _ => eapply H
  | |- forall _, _ => intros ?
  | |- blind _ => progress cbv zeta beta
  end.

Section WithParams2.
Context {P : Setup}.
Lemma blind_draw_many n l : blind (draw_many n l).
Proof. induction n; cbn [draw_many]; repeat blind_step. Qed.
Lemma blind_random_keys sz l c : blind (random_keys sz l c).
Proof. unfold random_keys. pose proof blind_draw_many. repeat blind_step. Qed.
Lemma blind_mset_loop l : blind (mset_loop l).
Proof. induction l as [|[k v] l IH]; cbn [mset_loop]; repeat blind_step. Qed.
Lemma blind_read_sets m ks acc : blind (read_sets m ks acc).
Proof. revert acc. induction ks as [|k ks IH]; intros acc; cbn [read_sets]; repeat blind_step. Qed.
Lemma blind_exists_loop ks n : blind (exists_loop ks n).
Proof. revert n. induction ks as [|k ks IH]; intros n; cbn [exists_loop]; repeat blind_step. Qed.
Lemma blind_mget_loop ks l : blind (mget_loop ks l).
Proof. revert l. induction ks as [|k ks IH]; intros l; cbn [mget_loop]; repeat blind_step. Qed.
Lemma blind_live_keys ks acc : blind (live_keys ks acc).
Proof. revert acc. induction ks as [|k ks IH]; intros acc; cbn [live_keys]; repeat blind_step. Qed.
Lemma blind_del_loop ks n : blind (del_loop ks n).
Proof. revert n. induction ks as [|k ks IH]; intros n; cbn [del_loop]; repeat blind_step. Qed.
Lemma blind_pop_many n s : blind (pop_many n s).
Proof. revert s. induction n as [|n IH]; intros s; cbn [pop_many]; unfold set_pop; repeat blind_step. Qed.
End WithParams2.
Ltac blind_more := first [apply blind_draw_many | apply blind_random_keys | apply blind_mset_loop | apply blind_read_sets | apply blind_exists_loop | apply blind_mget_loop | apply blind_live_keys | apply blind_del_loop | apply blind_pop_many].
(** The head constant of the program. *)
Ltac blind_head := match goal with |- blind ?p => let rec hd t := match t with ?f _ => hd f | _ => t end in let h := hd p in
  first [constr_eq h (@pbind); fail 1 | unfold h] end.
Ltac blind_cmd := repeat first [blind_more | blind_step | blind_head].

Section WithParams3.
Context {P : Setup}.
Lemma blind_exec cmd : cmd_is "keys" cmd = false -> blind (exec_in_db cmd).
Proof.
  pattern cmd, (exec_in_db cmd). apply table_ind; [intros; apply blind_crash|intros; apply blind_ret|].
  unfold cmd_table.
  repeat match goal with |- Forall _ [] => apply List.Forall_nil | |- Forall _ _ => apply List.Forall_cons; [cbn [fst snd]; intros n args Hn Hk|] end.
  all: try (assert (Hx : cmd_is "keys" (n :: args) = true) by (unfold cmd_is; rewrite Hn; reflexivity); rewrite Hx in Hk; discriminate Hk).
  all: blind_cmd.
Qed.
End WithParams3.
