(** Keys that are only read: the programs. *)
From Verif Require Export SpecOnlyRead ExpiredLog.

(** From here on the program changes nothing under the keys in [ks], as long as they hold what they hold in [d]. *)
Inductive leaves {P : Setup} {A} (T : Z -> Prop) (ks : list bytes) (d : db) : prog A -> Prop :=
| V_ret a : leaves T ks d (Ret a)
| V_crash : leaves T ks d Crash
| V_hang : leaves T ks d Hang
| V_now k : (forall t, T t -> leaves T ks d (k t)) -> leaves T ks d (Now k)
| V_range l k : (forall l', leaves T ks d (k l')) -> leaves T ks d (Range l k)
| V_dget key k : (forall x, leaves T ks d (k x)) -> leaves T ks d (DGet key k)
| V_dset key v k : key ∉ ks -> (forall x, leaves T ks d (k x)) -> leaves T ks d (DSet key v k)
| V_dmut key v k : key ∉ ks -> leaves T ks d k -> leaves T ks d (DMut key v k)
| V_ddel key k : key ∉ ks -> (forall x, leaves T ks d (k x)) -> leaves T ks d (DDel key k)
| V_dseg i k : (forall l, leaves T ks d (k l)) -> leaves T ks d (DSeg i k)
| V_cntload k : (forall c, leaves T ks d (k c)) -> leaves T ks d (CntLoad k)
| V_cntstore c k : leaves T ks d k -> leaves T ks d (CntStore c k)
| V_eget key k : (forall x, (key ∈ ks -> x = exps d !! key) -> leaves T ks d (k x)) -> leaves T ks d (EGet key k)
| V_eset key t k : key ∉ ks -> leaves T ks d k -> leaves T ks d (ESet key t k)
| V_edel key k : key ∉ ks -> (forall x, leaves T ks d (k x)) -> leaves T ks d (EDel key k)
| V_acq pos m k : leaves T ks d k -> leaves T ks d (Acq pos m k)
| V_rel pos m k : leaves T ks d k -> leaves T ks d (Rel pos m k).

Section WithParams.
Context {P : Setup} (T : Z -> Prop) (ks : list bytes) (d : db).
Notation leaves := (leaves T ks d).
Lemma lv_bind {A C} (p : prog A) (f : A -> prog C) : leaves p -> (forall a, leaves (f a)) -> leaves (pbind p f).
Proof. intros H Hf. induction H; cbn; auto; constructor; auto. Qed.
Lemma lv_with_lock {A} key (p : prog A) : leaves p -> leaves (with_lock MR key p).
Proof. intros H. unfold with_lock, lock, unlock. cbn. constructor. apply lv_bind; auto. intros a. repeat constructor. Qed.
Lemma lv_acq_all l : leaves (acq_all MR l).
Proof. induction l; constructor; auto. Qed.
Lemma lv_rel_all l : leaves (rel_all MR l).
Proof. induction l; constructor; auto. Qed.
Lemma lv_with_mlock {A} keys (p : prog A) : leaves p -> leaves (with_mlock MR keys p).
Proof.
  intros H. unfold with_mlock, mlock, munlock. apply lv_bind; [apply lv_acq_all|]. intros _. apply lv_bind; auto. intros a. apply lv_bind; [apply lv_rel_all|]. intros; constructor.
Qed.
Lemma lv_dict_get key : leaves (dict_get key).
Proof. constructor. intros; constructor. Qed.
Lemma lv_exp_get key : leaves (exp_get key).
Proof. constructor. intros; constructor. Qed.
Lemma lv_now : leaves now_unix.
Proof. constructor. intros; constructor. Qed.
Context (HT : lasting T ks d).
Lemma lv_dek key : leaves (delete_expired_key key).
Proof.
  unfold delete_expired_key, check_expire. cbn. constructor. intros x Hx. destruct x as [t|]; [|constructor]. cbn. constructor. intros now Hn.
  destruct (t <? now) eqn:F; [|constructor]. apply Z.ltb_lt in F. assert (N : key ∉ ks) by (intros Hk; specialize (HT key t now Hk (eq_sym (Hx Hk)) Hn); lia).
  cbn. constructor. constructor; [exact N|]. intros []; cbn; repeat (constructor; auto; intros).
Qed.
Lemma lv_draw_many n keys : leaves (draw_many n keys).
Proof. induction n as [|n IH]; cbn; constructor. intros [|x l]; [constructor|]. apply lv_bind; auto. intros; constructor. Qed.
Lemma lv_random_keys sz keys c : leaves (random_keys sz keys c).
Proof.
  unfold random_keys. repeat match goal with |- leaves (if ?x then _ else _) => destruct x end; try constructor; try apply lv_draw_many. intros; constructor.
Qed.
Lemma lv_exists_loop kk n : leaves (exists_loop kk n).
Proof.
  revert n. induction kk as [|k kk IH]; intros n; cbn [exists_loop]; [constructor|]. apply lv_bind; [apply lv_dek|]. intros []; auto.
  apply lv_bind; [|auto]. apply lv_with_lock. apply lv_bind; [apply lv_dict_get|]. intros; constructor.
Qed.
Lemma lv_mget_loop kk l : leaves (mget_loop kk l).
Proof.
  revert l. induction kk as [|k kk IH]; intros l; cbn [mget_loop]; [constructor|]. apply lv_bind; [apply lv_dek|]. intros []; auto.
  apply lv_bind; [|auto]. apply lv_with_lock. apply lv_bind; [apply lv_dict_get|]. intros [[]|]; constructor.
Qed.
Lemma lv_live_keys kk acc : leaves (live_keys kk acc).
Proof. revert acc. induction kk as [|k kk IH]; intros acc; cbn [live_keys]; [constructor|]. apply lv_bind; [apply lv_dek|]. auto. Qed.
Lemma lv_read_sets m kk acc : leaves (read_sets m kk acc).
Proof. revert acc. induction kk as [|k kk IH]; intros acc; cbn [read_sets]; [constructor|]. apply lv_bind; [apply lv_dict_get|]. intros [[]|]; auto; constructor. Qed.
Lemma lv_keys_loop p kk : leaves (keys_loop p kk).
Proof.
  induction kk as [|k kk IH]; cbn [keys_loop]; [constructor|]. apply lv_bind; [apply lv_dek|]. intros []; auto.
  repeat (match goal with |- leaves (match ?x with _ => _ end) => destruct x end); auto; try constructor. apply lv_bind; auto. intros; constructor.
Qed.
Lemma lv_keys_fill n i c : leaves (keys_fill n i c).
Proof.
  revert i c. induction n as [|n IH]; intros; cbn [keys_fill]; [repeat (match goal with |- leaves (match ?x with _ => _ end) => destruct x end); constructor|].
  constructor. intros l. repeat (match goal with |- leaves (match ?x with _ => _ end) => destruct x end); try constructor. apply lv_bind; auto. intros; constructor.
Qed.
End WithParams.
Ltac lv_step :=
  match goal with
  | |- leaves _ _ _ (Ret _) => apply V_ret
  | |- leaves _ _ _ Crash => apply V_crash
  | |- leaves _ _ _ Hang => apply V_hang
  | |- leaves _ _ _ (Range _ _) => apply V_range; intros ?
  | |- leaves _ _ _ (CntLoad _) => apply V_cntload; intros ?
  | |- leaves _ _ _ (with_lock _ _ _) => apply lv_with_lock
  | |- leaves _ _ _ (with_mlock _ _ _) => apply lv_with_mlock
  | |- leaves _ _ _ (let '(_, _) := ?x in _) => destruct x
  | |- leaves _ _ _ (match ?x with _ => _ end) => destruct x
  | |- leaves _ _ _ _ => first [apply lv_dict_get|apply lv_exp_get|apply lv_now|apply lv_dek; assumption|apply lv_random_keys|apply lv_exists_loop; assumption|apply lv_mget_loop; assumption
      |apply lv_live_keys; assumption|apply lv_read_sets|apply lv_keys_loop; assumption|apply lv_keys_fill]
  | |- leaves _ _ _ (pbind _ _) => apply lv_bind; [|intros ?]
  | |- forall _, _ => intros ?
  | |- leaves _ _ _ _ => progress cbv zeta beta
  | |- leaves _ _ _ _ => progress wf_unf
  end.
Section Commands.
Context {P : Setup} (T : Z -> Prop) (ks : list bytes) (d : db) (HT : lasting T ks d).
Lemma lv_cmd cmd : reading cmd -> leaves T ks d (exec_in_db cmd).
Proof.
  intros H. destruct cmd as [|n args]; [constructor|]. unfold reading in H. unfold exec_in_db. destruct (lookup_cmd (to_lower (str n))) as [ex|] eqn:E; [|constructor].
  destruct H as [H|H]; [|discriminate]. remember (to_lower (str n)) as nm eqn:En. clear En.
  unfold read_names in H. cbn [map] in H.
  repeat (apply elem_of_cons in H as [H|H]; [rewrite H in E; match type of E with ?l = Some _ => let r := eval hnf in l in change (r = Some ex) in E end; injection E as <-; repeat first [lv_step|progress read_unf]|]). inversion H.
Qed.
End Commands.


(** From here on the program reads keys in [ks] only. *)
Inductive rooted {P : Setup} {A} (T : Z -> Prop) (ks : list bytes) (d : db) : prog A -> Prop :=
| U_ret a : rooted T ks d (Ret a)
| U_crash : rooted T ks d Crash
| U_hang : rooted T ks d Hang
| U_now k : (forall t, T t -> rooted T ks d (k t)) -> rooted T ks d (Now k)
| U_range l k : (forall l', rooted T ks d (k l')) -> rooted T ks d (Range l k)
| U_dget key k : key ∈ ks -> (forall x, rooted T ks d (k x)) -> rooted T ks d (DGet key k)
| U_eget key k : key ∈ ks -> rooted T ks d (k (exps d !! key)) -> rooted T ks d (EGet key k)
| U_acq pos m k : rooted T ks d k -> rooted T ks d (Acq pos m k)
| U_rel pos m k : rooted T ks d k -> rooted T ks d (Rel pos m k).
Section Roots.
Context {P : Setup} (T : Z -> Prop) (ks : list bytes) (d : db).
Definition cut : db := mkDb (dict d) (filter (fun kv => kv.1 ∈ ks) (exps d)) (cnt d).
Lemma cut_exps key : key ∈ ks -> exps cut !! key = exps d !! key.
Proof.
  intros H. unfold cut. cbn. destruct (exps d !! key) as [t|] eqn:E.
  - apply map_filter_lookup_Some. auto.
  - apply map_filter_lookup_None. auto.
Qed.
Lemma cut_none : lasting T ks d -> none_expires T cut.
Proof. intros H key t now E Hn. unfold cut in E. cbn in E. apply map_filter_lookup_Some in E as [E Hk]. eapply H; eauto. Qed.
Lemma quiet_rooted {A} (K : bytes -> Prop) u h' (p : prog A) : (forall k, K k -> k ∈ ks) -> quiet T cut p -> forall h, wf K u false h' h p -> (forall l, h <> Grow MW l) -> rooted T ks d p.
Proof.
  intros HK Q. induction Q; intros h W Hh; inversion W; subst; try (constructor; eauto; fail).
  - discriminate.
  - match goal with H : _ \/ _ |- _ => destruct H as [[l ->]|[_ ?]]; [destruct (Hh l eq_refl)|discriminate] end.
  - assert (key ∈ ks) by auto. constructor; [auto|]. rewrite <- cut_exps by auto. eapply IHQ; eauto.
  - constructor. eapply IHQ; [eassumption|]. intros l' E'. destruct l; discriminate E'.
  - constructor. eapply IHQ; [eassumption|]. intros l' E'. destruct l; discriminate E'.
Qed.
Lemma about_not_keys cmd : about ks cmd -> cmd_is "keys" cmd = false.
Proof.
  intros [_ H]. destruct (cmd_is "keys" cmd) eqn:E; auto. exfalso. assert (Q : forall n, replicate n zero ∈ ks) by (intros n; apply H; right; auto).
  assert (L : (length ks < length (map (fun n => replicate n zero) (seq 0 (S (length ks)))))%nat) by (rewrite map_length, seq_length; lia).
  assert (N : NoDup (map (fun n => replicate n zero) (seq 0 (S (length ks))))).
  { apply NoDup_fmap_2; [|apply NoDup_seq]. intros a b Hab. apply (f_equal length) in Hab. rewrite !replicate_length in Hab. auto. }
  assert (Sub : map (fun n => replicate n zero) (seq 0 (S (length ks))) ⊆ ks). { intros z Hz. apply elem_of_list_fmap in Hz as (n & -> & _). auto. }
  pose proof (submseteq_length _ _ (NoDup_submseteq _ _ N Sub)) as Q2. exact (Nat.lt_irrefl _ (Nat.lt_le_trans _ _ _ L Q2)).
Qed.
Lemma rooted_exec cmd : lasting T ks d -> about ks cmd -> reading cmd -> rooted T ks d (exec_in_db cmd).
Proof.
  intros HL HA HR. pose proof (exec_wf cmd) as W. unfold cmd_wf in W. rewrite (about_not_keys _ HA) in W.
  exact (quiet_rooted (touched cmd) _ _ _ (proj2 HA) (quiet_cmd T cut (cut_none HL) cmd HR) _ W ltac:(intros ? ?; discriminate)).
Qed.
Lemma may_leaves {A} (W D : bytes -> Prop) (p : prog A) : may W D p -> (forall k, k ∈ ks -> ~ W k /\ ~ D k) -> leaves T ks d p.
Proof. intros H HN. induction H; constructor; auto; intros Hk; destruct (HN _ Hk); contradiction. Qed.
(** One access. *)
Lemma leaves_prim {A} d1 (p : prog A) d2 p' : prim T d1 p d2 p' -> leaves T ks d p -> same_on ks d d1 -> same_on ks d d2 /\ leaves T ks d p'.
Proof.
  intros H HL HS. destruct H; inversion HL; subst; (split; [try exact HS|auto]).
  - intros k0 Hk. cbn. rewrite lookup_insert_ne by (intros ->; contradiction). exact (HS _ Hk).
  - intros k0 Hk. cbn. rewrite lookup_alter_ne by (intros ->; contradiction). exact (HS _ Hk).
  - intros k0 Hk. cbn. rewrite lookup_delete_ne by (intros ->; contradiction). exact (HS _ Hk).
  - match goal with H : forall x, _ -> leaves _ _ _ _ |- _ => apply H end. intros Hk. apply (HS _ Hk).
  - intros k0 Hk. cbn. rewrite lookup_insert_ne by (intros ->; contradiction). exact (HS _ Hk).
  - intros k0 Hk. cbn. rewrite lookup_delete_ne by (intros ->; contradiction). exact (HS _ Hk).
Qed.
Lemma rooted_prim {A} d1 (p : prog A) d2 p' : prim T d1 p d2 p' -> rooted T ks d p -> same_on ks d d1 -> rooted T ks d p' /\ forall out, runs T d p' out -> runs T d p out.
Proof.
  intros H HL HS. destruct H; inversion HL; subst.
  - split; auto.
  - split; [auto|]. intros out Ho. econstructor; eauto.
  - split; [auto|]. intros out Ho. econstructor; eauto.
  - split; [auto|]. intros out Ho. constructor. rewrite <- (proj1 (HS key ltac:(auto))). exact Ho.
  - assert (E : exps d0 !! key = exps d !! key) by (apply HS; auto). rewrite E. split; [auto|]. intros out Ho. constructor. exact Ho.
Qed.
End Roots.
