(** Who changes what is stored under a key. *)
From Verif Require Export SpecMemory StallProofs ReadersProofs.

(** From here on the program writes under keys in [W] only, and removes keys in [D] only. *)
Inductive may {P : Setup} {A} (W D : bytes -> Prop) : prog A -> Prop :=
| Y_ret a : may W D (Ret a)
| Y_crash : may W D Crash
| Y_hang : may W D Hang
| Y_now k : (forall t, may W D (k t)) -> may W D (Now k)
| Y_range l k : (forall l', may W D (k l')) -> may W D (Range l k)
| Y_dget key k : (forall x, may W D (k x)) -> may W D (DGet key k)
| Y_dset key v k : W key -> (forall x, may W D (k x)) -> may W D (DSet key v k)
| Y_dmut key v k : W key -> may W D k -> may W D (DMut key v k)
| Y_ddel key k : D key -> (forall x, may W D (k x)) -> may W D (DDel key k)
| Y_dseg i k : (forall l, may W D (k l)) -> may W D (DSeg i k)
| Y_cntload k : (forall c, may W D (k c)) -> may W D (CntLoad k)
| Y_cntstore c k : may W D k -> may W D (CntStore c k)
| Y_eget key k : (forall x, may W D (k x)) -> may W D (EGet key k)
| Y_eset key t k : W key -> may W D k -> may W D (ESet key t k)
| Y_edel key k : D key -> (forall x, may W D (k x)) -> may W D (EDel key k)
| Y_acq pos m k : may W D k -> may W D (Acq pos m k)
| Y_rel pos m k : may W D k -> may W D (Rel pos m k).

Section WithParams.
Context {P : Setup}.
Section Any.
Context (W D : bytes -> Prop).
Lemma may_bind {A C} (p : prog A) (f : A -> prog C) : may W D p -> (forall a, may W D (f a)) -> may W D (pbind p f).
Proof. intros H Hf. induction H; cbn; auto; constructor; auto. Qed.
Lemma may_wf {A} u s h' h (p : prog A) : (forall k, D k -> W k) -> wf D u s h' h p -> may W D p.
Proof. intros HD H. induction H; constructor; auto. Qed.
End Any.
Lemma may_both {A} (W W' D D' : bytes -> Prop) (p : prog A) : may W D p -> may W' D' p -> may (fun k => W k /\ W' k) (fun k => D k /\ D' k) p.
Proof. intros H. induction H; intros H'; inversion H'; subst; constructor; auto. Qed.
Lemma may_weaken {A} (W W' D D' : bytes -> Prop) (p : prog A) : may W D p -> (forall k, W k -> W' k) -> (forall k, D k -> D' k) -> may W' D' p.
Proof. intros H HW HD. induction H; constructor; auto. Qed.

(** ** Reading commands only remove *)
Notation none := (fun _ : bytes => False).
Notation all := (fun _ : bytes => True).
Lemma rm_with_lock {A} m key (p : prog A) : may none all p -> may none all (with_lock m key p).
Proof. intros H. unfold with_lock, lock, unlock. cbn. constructor. apply may_bind; auto. intros a. repeat constructor. Qed.
Lemma rm_acq_all m l : may none all (acq_all m l).
Proof. induction l; constructor; auto. Qed.
Lemma rm_rel_all m l : may none all (rel_all m l).
Proof. induction l; constructor; auto. Qed.
Lemma rm_with_mlock {A} m keys (p : prog A) : may none all p -> may none all (with_mlock m keys p).
Proof.
  intros H. unfold with_mlock, mlock, munlock. apply may_bind; [apply rm_acq_all|]. intros _. apply may_bind; auto. intros a. apply may_bind; [apply rm_rel_all|]. intros; constructor.
Qed.
Lemma rm_dict_get key : may none all (dict_get key).
Proof. constructor. intros; constructor. Qed.
Lemma rm_exp_get key : may none all (exp_get key).
Proof. constructor. constructor. Qed.
Lemma rm_now : may none all now_unix.
Proof. constructor. intros; constructor. Qed.
Lemma rm_dek key : may none all (delete_expired_key key).
Proof.
  unfold delete_expired_key, check_expire. cbn. constructor. intros [t|]; cbn; [|constructor]. constructor. intros now. destruct (t <? now); [|constructor].
  cbn. repeat (first [match goal with |- may _ _ (if ?b then _ else _) => destruct b | |- may _ _ (pbind (if ?b then _ else _) _) => destruct b | |- forall _, _ => intros ? | |- True => exact I | x : bool |- _ => destruct x end|progress cbn|constructor]).
Qed.
Lemma rm_draw_many n keys : may none all (draw_many n keys).
Proof. induction n as [|n IH]; cbn; constructor. intros [|x l]; [constructor|]. apply may_bind; auto. intros; constructor. Qed.
Lemma rm_random_keys sz keys c : may none all (random_keys sz keys c).
Proof.
  unfold random_keys. repeat match goal with |- may _ _ (if ?x then _ else _) => destruct x end; try constructor; try apply rm_draw_many. intros; constructor.
Qed.
Lemma rm_exists_loop ks n : may none all (exists_loop ks n).
Proof.
  revert n. induction ks as [|k ks IH]; intros n; cbn [exists_loop]; [constructor|]. apply may_bind; [apply rm_dek|]. intros []; auto.
  apply may_bind; [|auto]. apply rm_with_lock. apply may_bind; [apply rm_dict_get|]. intros; constructor.
Qed.
Lemma rm_mget_loop ks l : may none all (mget_loop ks l).
Proof.
  revert l. induction ks as [|k ks IH]; intros l; cbn [mget_loop]; [constructor|]. apply may_bind; [apply rm_dek|]. intros []; auto.
  apply may_bind; [|auto]. apply rm_with_lock. apply may_bind; [apply rm_dict_get|]. intros [[]|]; constructor.
Qed.
Lemma rm_live_keys ks acc : may none all (live_keys ks acc).
Proof. revert acc. induction ks as [|k ks IH]; intros acc; cbn [live_keys]; [constructor|]. apply may_bind; [apply rm_dek|]. auto. Qed.
Lemma rm_read_sets m ks acc : may none all (read_sets m ks acc).
Proof. revert acc. induction ks as [|k ks IH]; intros acc; cbn [read_sets]; [constructor|]. apply may_bind; [apply rm_dict_get|]. intros [[]|]; auto; constructor. Qed.
Lemma rm_keys_loop p ks : may none all (keys_loop p ks).
Proof.
  induction ks as [|k ks IH]; cbn [keys_loop]; [constructor|]. apply may_bind; [apply rm_dek|]. intros []; auto.
  repeat (match goal with |- may _ _ (match ?x with _ => _ end) => destruct x end); auto; try constructor. apply may_bind; auto. intros; constructor.
Qed.
Lemma rm_keys_fill n i c : may none all (keys_fill n i c).
Proof.
  revert i c. induction n as [|n IH]; intros; cbn [keys_fill]; [repeat (match goal with |- may _ _ (match ?x with _ => _ end) => destruct x end); constructor|].
  constructor. intros l. repeat (match goal with |- may _ _ (match ?x with _ => _ end) => destruct x end); try constructor. apply may_bind; auto. intros; constructor.
Qed.
Ltac may_step :=
  match goal with
  | |- may _ _ (Ret _) => apply Y_ret
  | |- may _ _ Crash => apply Y_crash
  | |- may _ _ Hang => apply Y_hang
  | |- may _ _ (Range _ _) => apply Y_range; intros ?
  | |- may _ _ (CntLoad _) => apply Y_cntload; intros ?
  | |- may _ _ (with_lock _ _ _) => apply rm_with_lock
  | |- may _ _ (with_mlock _ _ _) => apply rm_with_mlock
  | |- may _ _ (let '(_, _) := ?x in _) => destruct x
  | |- may _ _ (match ?x with _ => _ end) => destruct x
  | |- may _ _ _ => first [apply rm_dict_get|apply rm_exp_get|apply rm_now|apply rm_dek|apply rm_random_keys|apply rm_exists_loop|apply rm_mget_loop
      |apply rm_live_keys|apply rm_read_sets|apply rm_keys_loop|apply rm_keys_fill]
  | |- may _ _ (pbind _ _) => apply may_bind; [|intros ?]
  | |- forall _, _ => intros ?
  | |- may _ _ _ => progress cbv zeta beta
  | |- may _ _ _ => progress wf_unf
  end.
Lemma rm_cmd cmd : reading cmd -> may none all (exec_in_db cmd).
Proof.
  intros H. destruct cmd as [|n args]; [constructor|]. unfold reading in H. unfold exec_in_db. destruct (lookup_cmd (to_lower (str n))) as [ex|] eqn:E; [|constructor].
  destruct H as [H|H]; [|discriminate]. remember (to_lower (str n)) as nm eqn:En. clear En.
  unfold read_names in H. cbn [map] in H.
  repeat (apply elem_of_cons in H as [H|H]; [rewrite H in E; match type of E with ?l = Some _ => let r := eval hnf in l in change (r = Some ex) in E end; injection E as <-; repeat first [may_step|progress read_unf]|]). inversion H.
Qed.

(** ** Every command *)
Definition owns (cmd : command) (p : prog rdata) : Prop := may (fun k => k ∈ key_args cmd /\ ~ reading cmd) (touched cmd) p.
Lemma reading_dec cmd : {reading cmd} + {~ reading cmd}.
Proof.
  destruct cmd as [|n args]; [left; exact I|]. unfold reading. destruct (decide (to_lower (str n) ∈ map B read_names)); [left; auto|].
  destruct (lookup_cmd (to_lower (str n))); [right; intros [?|?]; [contradiction|discriminate]|left; auto].
Qed.
Lemma keys_reading cmd : cmd_is "keys" cmd = true -> reading cmd.
Proof. destruct cmd as [|n args]; [discriminate|]. intros H. left. apply bool_decide_eq_true_1 in H. rewrite H. apply (bool_decide_unpack _). vm_compute. exact I. Qed.
Lemma owns_exec cmd : owns cmd (exec_in_db cmd).
Proof.
  pose proof (may_wf (touched cmd) (touched cmd) _ _ _ _ _ (fun _ H => H) (exec_wf cmd)) as H. unfold owns. destruct (reading_dec cmd) as [R|R].
  - eapply may_weaken; [exact (may_both _ _ _ _ _ H (rm_cmd _ R))| |]; cbn; tauto.
  - eapply may_weaken; [exact H| |]; cbn; auto. intros k [Hk|Hk]; auto. destruct (R (keys_reading _ Hk)).
Qed.
Lemma may_prim {A} T (W D : bytes -> Prop) d (p : prog A) d' p' : prim T d p d' p' -> may W D p -> may W D p'.
Proof. intros H M. destruct H; inversion M; subst; auto. Qed.
Lemma may_changes {A} T (W D : bytes -> Prop) d (p : prog A) d' p' k : prim T d p d' p' -> may W D p -> (stores d d' k -> W k) /\ (differs d d' k -> W k \/ D k).
Proof.
  intros H M.
  assert (N : (stores d d k -> W k) /\ (differs d d k -> W k \/ D k)).
  { split; [intros [(v & A1 & A2)|(v & A1 & A2)]; congruence|intros [?|?]; congruence]. }
  destruct H; inversion M; subst; auto; unfold stores, differs; cbn.
  - destruct (decide (key = k)) as [->|Hn]; [auto|]. rewrite lookup_insert_ne by auto. exact N.
  - destruct (decide (key = k)) as [->|Hn]; [auto|]. rewrite lookup_alter_ne by auto. exact N.
  - destruct (decide (key = k)) as [->|Hn]; [|rewrite lookup_delete_ne by auto; exact N]. rewrite lookup_delete. split; [|auto]. intros [(v & A1 & A2)|(v & A1 & A2)]; congruence.
  - destruct (decide (key = k)) as [->|Hn]; [auto|]. rewrite lookup_insert_ne by auto. exact N.
  - destruct (decide (key = k)) as [->|Hn]; [|rewrite lookup_delete_ne by auto; exact N]. rewrite lookup_delete. split; [|auto]. intros [(v & A1 & A2)|(v & A1 & A2)]; congruence.
Qed.

(** ** The executors of the process, each with its command *)
Definition busy_at (ps : list peer) (j i : nat) (q : prog rdata) : Prop :=
  (exists r, q = Ret r) \/ exists p cmd, ps !! i = Some p /\ hnd (lnk p) = HExec cmd /\ runs_on p = Some j /\ owns cmd q.
Definition MI (x : world) : Prop := forall j c i t, wcores x !! j = Some c -> ths c !! i = Some t -> busy_at (peers x) j i (tcode t).
Lemma mi_boot sl ds n : MI (boot sl ds n).
Proof.
  intros j c i t Hj Hi. cbn in Hj. rewrite list_lookup_fmap in Hj. destruct (ds !! j) as [d|]; [|discriminate]. injection Hj as <-. cbn in Hi. rewrite list_lookup_fmap in Hi.
  destruct (replicate n (Ret Prog.rnil) !! i) as [q|] eqn:E; [|discriminate]. injection Hi as <-. apply lookup_replicate in E as [-> _]. left. eexists. reflexivity.
Qed.
(** A client whose handler does nothing that concerns its executor. *)
Lemma busy_put ps i p p' j i' q : ps !! i = Some p -> (forall cmd j, hnd (lnk p) = HExec cmd -> runs_on p = Some j -> hnd (lnk p') = HExec cmd /\ runs_on p' = Some j) ->
  busy_at ps j i' q -> busy_at (<[i := p']> ps) j i' q.
Proof.
  intros Hi Hp [Hq|(p0 & cmd & H0 & Hh & Hr & Ho)]; [left; auto|]. right. destruct (decide (i = i')) as [<-|Hn].
  - assert (p0 = p) as -> by congruence. destruct (Hp _ _ Hh Hr). exists p', cmd. rewrite list_lookup_insert by (eapply lookup_lt_Some; eauto). auto.
  - exists p0, cmd. rewrite list_lookup_insert_ne by auto. auto.
Qed.
Lemma busy_client l l' : Pipe.client l l' -> hnd l' = hnd l.
Proof. intros H. inversion H; reflexivity. Qed.
Lemma busy_link l l' cmd : Pipe.lstep l l' -> log l' = log l -> hnd l = HExec cmd -> hnd l' = HExec cmd.
Proof. intros H HL Hh. inversion H; subst; cbn in *; auto; try discriminate. exfalso. eapply log_grows; eauto. Qed.
(** A client whose executor has returned. *)
Lemma busy_done ps i p p' j i' q : ps !! i = Some p -> (i' = i -> exists r, q = Ret r) -> busy_at ps j i' q -> busy_at (<[i := p']> ps) j i' q.
Proof.
  intros Hi Hr [Hq|(p0 & cmd & H0 & Hh & Hs & Ho)]; [left; auto|]. destruct (decide (i = i')) as [<-|Hn]; [left; auto|]. right.
  exists p0, cmd. rewrite list_lookup_insert_ne by auto. auto.
Qed.
Lemma owns_cstep T c c' : cstep T c c' -> exists i p p' b b', ths c !! i = Some (mkT p b) /\ ths c' = <[i := mkT p' b']> (ths c) /\
  (forall cmd, owns cmd p -> owns cmd p') /\ (forall r, p <> Ret r) /\ (cdb c' = cdb c \/ prim T (cdb c) p (cdb c') p').
Proof.
  intros H. destruct H; cbn; eexists i, _, _, _, _; (split; [eassumption|]); (split; [reflexivity|]).
  1: { split; [intros cmd; apply (may_prim _ _ _ _ _ _ _ H0)|]. split; [intros r ->; inversion H0|auto]. }
  all: split; [intros cmd Hc; first [exact Hc|inversion Hc; subst; assumption]|]; split; [discriminate|auto].
Qed.
Lemma mi_step T x y : MI x -> happens T x y -> MI y.
Proof.
  intros HM [H|H]; destruct H; intros j0 c0 i0 t0 Hj Hi; cbn in Hj |- *; try (exact (HM _ _ _ _ Hj Hi)).
  - eapply busy_put; [eassumption| |exact (HM _ _ _ _ Hj Hi)]. cbn. auto.
  - eapply busy_put; [eassumption| |exact (HM _ _ _ _ Hj Hi)]. cbn. intros cmd j. erewrite (busy_client l l') by eassumption. auto.
  - eapply busy_put; [eassumption| |exact (HM _ _ _ _ Hj Hi)]. cbn. auto.
  - eapply busy_put; [eassumption| |exact (HM _ _ _ _ Hj Hi)]. cbn. auto.
  - eapply busy_put; [eassumption| |exact (HM _ _ _ _ Hj Hi)]. cbn. intros cmd j Hh Hr. split; [eapply busy_link; eassumption|auto].
  - eapply busy_done; [eassumption| |exact (HM _ _ _ _ Hj Hi)]. intros ->. destruct (HM _ _ _ _ Hj Hi) as [?|(p0 & c1 & A1 & A2 & A3 & _)]; [auto|]. cbn in A1. rewrite H in A1. injection A1 as <-. discriminate.
  - destruct (decide (j0 = sl)) as [->|Hn].
    + rewrite list_lookup_insert in Hj by (eapply lookup_lt_Some; eauto). injection Hj as <-. cbn in Hi. destruct (decide (i0 = i)) as [->|Hi0].
      * rewrite list_lookup_insert in Hi by (apply lookup_lt_Some in Hi; rewrite insert_length in Hi; auto). injection Hi as <-. right. eexists _, cmd. rewrite list_lookup_insert by (eapply lookup_lt_Some; eauto).
        cbn. split; [reflexivity|]. split; [auto|]. split; [auto|]. apply owns_exec.
      * rewrite list_lookup_insert_ne in Hi by auto. eapply busy_done; [eassumption|intros ->; congruence|exact (HM sl _ _ _ H3 Hi)].
    + rewrite list_lookup_insert_ne in Hj by auto. eapply busy_done; [eassumption| |exact (HM _ _ _ _ Hj Hi)]. intros ->.
      destruct (HM _ _ _ _ Hj Hi) as [?|(p0 & c1 & A1 & A2 & A3 & _)]; [auto|]. cbn in A1. rewrite H in A1. injection A1 as <-. discriminate.
  - destruct (decide (j0 = j)) as [->|Hn]; [|rewrite list_lookup_insert_ne in Hj by auto; exact (HM _ _ _ _ Hj Hi)].
    rewrite list_lookup_insert in Hj by (eapply lookup_lt_Some; eauto). injection Hj as <-. destruct (owns_cstep _ _ _ H0) as (i1 & p & p' & b & b' & B1 & B2 & B3 & B4 & _). rewrite B2 in Hi.
    destruct (decide (i0 = i1)) as [->|Hi0]; [|rewrite list_lookup_insert_ne in Hi by auto; exact (HM _ _ _ _ H Hi)].
    rewrite list_lookup_insert in Hi by (eapply lookup_lt_Some; eauto). injection Hi as <-. cbn. destruct (HM _ _ _ _ H B1) as [[r Hr]|(p0 & c1 & A1 & A2 & A3 & A4)]; [destruct (B4 _ Hr)|].
    right. exists p0, c1. auto.
  - eapply busy_done; [eassumption| |exact (HM _ _ _ _ Hj Hi)]. intros ->. destruct (HM _ _ _ _ Hj Hi) as [?|(p0 & c1 & A1 & A2 & A3 & _)]; [auto|]. cbn in A1. rewrite H in A1. injection A1 as <-.
    cbn in A3. injection A3 as ->. rewrite H1 in Hj. injection Hj as ->. rewrite H2 in Hi. injection Hi as <-. eexists; reflexivity.
Qed.
Lemma mi_rtc T x y : rtc (happens T) x y -> MI x -> MI y.
Proof. induction 1 as [|x y z H _ IH]; auto. intros HM. apply IH. eapply mi_step; eauto. Qed.
(** One step. *)
Lemma mi_changes T x y j c c' k : MI x -> happens T x y -> wcores x !! j = Some c -> wcores y !! j = Some c' ->
  (stores (cdb c) (cdb c') k -> exists i cmd, performs x j i cmd /\ k ∈ key_args cmd /\ ~ reading cmd) /\
  (differs (cdb c) (cdb c') k -> exists i cmd, performs x j i cmd /\ touched cmd k).
Proof.
  intros HM Hs Hj Hj'.
  assert (N : cdb c' = cdb c -> (stores (cdb c) (cdb c') k -> exists i cmd, performs x j i cmd /\ k ∈ key_args cmd /\ ~ reading cmd) /\
    (differs (cdb c) (cdb c') k -> exists i cmd, performs x j i cmd /\ touched cmd k)).
  { intros ->. split; [intros [(v & A1 & A2)|(v & A1 & A2)]; congruence|intros [?|?]; congruence]. }
  destruct Hs as [H|H]; destruct H; cbn in Hj, Hj'; try (apply N; congruence).
  - apply N. destruct (decide (j = sl)) as [->|Hn]; [|rewrite list_lookup_insert_ne in Hj' by auto; congruence]. rewrite list_lookup_insert in Hj' by (eapply lookup_lt_Some; eauto). injection Hj' as <-. cbn. congruence.
  - destruct (decide (j = j0)) as [->|Hn]; [|rewrite list_lookup_insert_ne in Hj' by auto; apply N; congruence]. rewrite list_lookup_insert in Hj' by (eapply lookup_lt_Some; eauto). injection Hj' as <-.
    assert (c0 = c) as -> by congruence. destruct (owns_cstep _ _ _ H0) as (i1 & p & p' & b & b' & B1 & B2 & B3 & B4 & [B5|B5]); [auto|].
    destruct (HM _ _ _ _ Hj B1) as [[r Hr]|(p0 & c1 & A1 & A2 & A3 & A4)]; [destruct (B4 _ Hr)|]. destruct (may_changes _ _ _ _ _ _ _ k B5 A4) as [C1 C2].
    assert (Q : performs (mkW sl cs ps sg Running) j0 i1 c1) by (exists p0; auto). split; intros HS.
    + exists i1, c1. split; [exact Q|auto].
    + exists i1, c1. split; [exact Q|]. destruct (C2 HS) as [[? _]|?]; [left; auto|auto].
Qed.
End WithParams.
