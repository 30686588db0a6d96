(** Commands that only read. *)
From Verif Require Export SpecReaders WfCmds ConcProofs SerialProofs.

(** From here on the program reads [d] and takes locks in the shared mode only. *)
Inductive quiet {P : Setup} {A} (T : Z -> Prop) (d : db) : prog A -> Prop :=
| Q_ret a : quiet T d (Ret a)
| Q_crash : quiet T d Crash
| Q_hang : quiet T d Hang
| Q_now k : (forall t, T t -> quiet T d (k t)) -> quiet T d (Now k)
| Q_range l k : (forall l', quiet T d (k l')) -> quiet T d (Range l k)
| Q_dget key k : (forall x, quiet T d (k x)) -> quiet T d (DGet key k)
| Q_dseg i k : (forall l, quiet T d (k l)) -> quiet T d (DSeg i k)
| Q_cntload k : (forall c, quiet T d (k c)) -> quiet T d (CntLoad k)
| Q_eget key k : quiet T d (k (exps d !! key)) -> quiet T d (EGet key k)
| Q_acq pos k : quiet T d k -> quiet T d (Acq pos MR k)
| Q_rel pos k : quiet T d k -> quiet T d (Rel pos MR k).

Section WithParams.
Context {P : Setup} (T : Z -> Prop) (d : db).
Notation quiet := (quiet T d).
Lemma quiet_bind {A C} (p : prog A) (f : A -> prog C) : quiet p -> (forall a, quiet (f a)) -> quiet (pbind p f).
Proof. intros H Hf. induction H; cbn; auto; constructor; auto. Qed.
Lemma quiet_with_lock {A} key (p : prog A) : quiet p -> quiet (with_lock MR key p).
Proof. intros H. unfold with_lock, lock, unlock. cbn. constructor. apply quiet_bind; auto. intros a. repeat constructor. Qed.
Lemma quiet_acq_all l : quiet (acq_all MR l).
Proof. induction l; constructor; auto. Qed.
Lemma quiet_rel_all l : quiet (rel_all MR l).
Proof. induction l; constructor; auto. Qed.
Lemma quiet_with_mlock {A} keys (p : prog A) : quiet p -> quiet (with_mlock MR keys p).
Proof.
  intros H. unfold with_mlock, mlock, munlock. apply quiet_bind; [apply quiet_acq_all|]. intros _. apply quiet_bind; auto. intros a. apply quiet_bind; [apply quiet_rel_all|]. intros; constructor.
Qed.
Lemma quiet_dict_get key : quiet (dict_get key).
Proof. constructor. intros; constructor. Qed.
Lemma quiet_exp_get key : quiet (exp_get key).
Proof. constructor. constructor. Qed.
Lemma quiet_now : quiet now_unix.
Proof. constructor. intros; constructor. Qed.
Context (HT : none_expires T d).
Lemma quiet_dek key : quiet (delete_expired_key key).
Proof.
  unfold delete_expired_key, check_expire. cbn. constructor. destruct (exps d !! key) as [t|] eqn:E; [|constructor]. cbn. constructor. intros now Hn.
  destruct (t <? now) eqn:F; [|constructor]. apply Z.ltb_lt in F. specialize (HT key t now E Hn). lia.
Qed.
Lemma quiet_draw_many n keys : quiet (draw_many n keys).
Proof. induction n as [|n IH]; cbn; constructor. intros [|x l]; [constructor|]. apply quiet_bind; auto. intros; constructor. Qed.
Lemma quiet_random_keys sz keys c : quiet (random_keys sz keys c).
Proof.
  unfold random_keys. repeat match goal with |- quiet (if ?x then _ else _) => destruct x end; try constructor; try apply quiet_draw_many. intros; constructor.
Qed.
Lemma quiet_exists_loop ks n : quiet (exists_loop ks n).
Proof.
  revert n. induction ks as [|k ks IH]; intros n; cbn [exists_loop]; [constructor|]. apply quiet_bind; [apply quiet_dek|]. intros []; auto.
  apply quiet_bind; [|auto]. apply quiet_with_lock. apply quiet_bind; [apply quiet_dict_get|]. intros; constructor.
Qed.
Lemma quiet_mget_loop ks l : quiet (mget_loop ks l).
Proof.
  revert l. induction ks as [|k ks IH]; intros l; cbn [mget_loop]; [constructor|]. apply quiet_bind; [apply quiet_dek|]. intros []; auto.
  apply quiet_bind; [|auto]. apply quiet_with_lock. apply quiet_bind; [apply quiet_dict_get|]. intros [[]|]; constructor.
Qed.
Lemma quiet_live_keys ks acc : quiet (live_keys ks acc).
Proof. revert acc. induction ks as [|k ks IH]; intros acc; cbn [live_keys]; [constructor|]. apply quiet_bind; [apply quiet_dek|]. auto. Qed.
Lemma quiet_read_sets m ks acc : quiet (read_sets m ks acc).
Proof. revert acc. induction ks as [|k ks IH]; intros acc; cbn [read_sets]; [constructor|]. apply quiet_bind; [apply quiet_dict_get|]. intros [[]|]; auto; constructor. Qed.
Lemma quiet_keys_loop p ks : quiet (keys_loop p ks).
Proof.
  induction ks as [|k ks IH]; cbn [keys_loop]; [constructor|]. apply quiet_bind; [apply quiet_dek|]. intros []; auto.
  repeat (match goal with |- quiet (match ?x with _ => _ end) => destruct x end); auto; try constructor. apply quiet_bind; auto. intros; constructor.
Qed.
Lemma quiet_keys_fill n i c : quiet (keys_fill n i c).
Proof.
  revert i c. induction n as [|n IH]; intros; cbn [keys_fill]; [repeat (match goal with |- quiet (match ?x with _ => _ end) => destruct x end); constructor|].
  constructor. intros l. repeat (match goal with |- quiet (match ?x with _ => _ end) => destruct x end); try constructor. apply quiet_bind; auto. intros; constructor.
Qed.
End WithParams.
Ltac quiet_step :=
  match goal with
  | |- quiet _ _ (Ret _) => apply Q_ret
  | |- quiet _ _ Crash => apply Q_crash
  | |- quiet _ _ Hang => apply Q_hang
  | |- quiet _ _ (Range _ _) => apply Q_range; intros ?
  | |- quiet _ _ (CntLoad _) => apply Q_cntload; intros ?
  | |- quiet _ _ (with_lock _ _ _) => apply quiet_with_lock
  | |- quiet _ _ (with_mlock _ _ _) => apply quiet_with_mlock
  | |- quiet _ _ (let '(_, _) := ?x in _) => destruct x
  | |- quiet _ _ (match ?x with _ => _ end) => destruct x
  | |- quiet _ _ _ => first [apply quiet_dict_get|apply quiet_exp_get|apply quiet_now|apply quiet_dek; assumption|apply quiet_random_keys|apply quiet_exists_loop; assumption|apply quiet_mget_loop; assumption
      |apply quiet_live_keys; assumption|apply quiet_read_sets|apply quiet_keys_loop; assumption|apply quiet_keys_fill]
  | |- quiet _ _ (pbind _ _) => apply quiet_bind; [|intros ?]
  | |- forall _, _ => intros ?
  | |- quiet _ _ _ => progress cbv zeta beta
  | |- quiet _ _ _ => progress wf_unf
  end.
Ltac read_unf :=
  unfold ping_keys, exists_key, keys_key, dict_keys, ttl_key, type_key, get_string, getrange_string, mget_string, strlen_string, hexists_hash, hget_hash, hgetall_hash, hkeys_hash, hlen_hash,
    hmget_hash, hvals_hash, hstrlen_hash, hrandfield_hash, lindex_list, llen_list, lpos_list, lrange_list, scard_set, sdiff_set, sinter_set, sunion_set, setop_set, sismember_set, smembers_set, srandmember_set.
Section Commands.
Context {P : Setup} (T : Z -> Prop) (d : db) (HT : none_expires T d).
Lemma quiet_cmd cmd : reading cmd -> quiet T d (exec_in_db cmd).
Proof.
  intros H. destruct cmd as [|n args]; [constructor|]. unfold reading in H. unfold exec_in_db. destruct (lookup_cmd (to_lower (str n))) as [ex|] eqn:E; [|constructor].
  destruct H as [H|H]; [|discriminate]. remember (to_lower (str n)) as nm eqn:En. clear En.
  unfold read_names in H. cbn [map] in H.
  repeat (apply elem_of_cons in H as [H|H]; [rewrite H in E; match type of E with ?l = Some _ => let r := eval hnf in l in change (r = Some ex) in E end; injection E as <-; repeat first [quiet_step|progress read_unf]|]). inversion H.
Qed.
End Commands.

(** ** Alone *)
Section Runs.
Context {P : Setup} (T : Z -> Prop).
Lemma runs_bind_done {A C} d (p : prog A) (f : A -> prog C) a d' : runs T d (pbind p f) (Done a d') -> exists x d1, runs T d p (Done x d1) /\ runs T d1 (f x) (Done a d').
Proof.
  revert d. induction p as [x| | |k IH|l k IH|key k IH|key v k IH|key v k IH|key k IH|i k IH|k IH|c k IH|key k IH|key t k IH|key k IH|pos m k IH|pos m k IH]; intros d0 Hr; cbn in Hr.
  1: exists x, d0; split; [constructor|auto].
  all: inversion Hr; subst; clear Hr; match goal with H : runs _ _ _ _ |- _ => apply IH in H as (y & d1 & Hy1 & Hy2) end; exists y, d1; (split; [econstructor; eauto|auto]).
Qed.
Lemma quiet_runs {A} d (p : prog A) a d' : quiet T d p -> runs T d p (Done a d') -> d' = d.
Proof. intros Q. revert a d'. induction Q; intros b d' Hr; inversion Hr; subst; eauto. Qed.
Lemma readers_alone d acc cmds rs d' : none_expires T d -> Forall reading cmds -> runs T d (client_from acc cmds) (Done rs d') ->
  d' = d /\ exists rs', rs = acc ++ rs' /\ Forall2 (fun cmd r => runs T d (exec_in_db cmd) (Done r d)) cmds rs'.
Proof.
  intros HT HF. revert acc. induction HF as [|c cmds Hc _ IH]; intros acc Hr; cbn [client_from] in Hr.
  - inversion Hr; subst. split; auto. exists []. rewrite app_nil_r. auto.
  - destruct (runs_bind_done _ _ _ _ _ Hr) as (x & d1 & H1 & H2). assert (d1 = d) as -> by (eapply quiet_runs; [apply quiet_cmd; eauto|exact H1]).
    destruct (IH _ H2) as (-> & rs' & -> & HF). split; auto. exists (x :: rs'). split; [rewrite <- app_assoc; reflexivity|]. constructor; auto.
Qed.
End Runs.

(** ** Together *)
Section Clients.
Context {P : Setup} (T : Z -> Prop) (d : db) (HT : none_expires T d).
Definition undisturbed (cmds : list command) (t : thread (list rdata)) : Prop :=
  quiet T d (tcode t) /\ ann t = false /\ forall out, runs T d (tcode t) out -> runs T d (client cmds) out.
Record RI (cs : list (list command)) (c : conf (list rdata)) : Prop := mkRI {
  i_db : cdb c = d;
  i_lk : forall p, wr (lk c p) = false /\ pend (lk c p) = false;
  i_ths : Forall2 undisturbed cs (ths c) }.
Lemma quiet_client acc cmds : Forall reading cmds -> quiet T d (client_from acc cmds).
Proof. intros HF. revert acc. induction HF as [|c cmds Hc _ IH]; intros acc; cbn [client_from]; [constructor|]. apply quiet_bind; [apply quiet_cmd; auto|]. auto. Qed.
Lemma ri_start cs : Forall (Forall reading) cs -> RI cs (clients d cs).
Proof.
  intros HF. constructor; auto. unfold clients, start. cbn. rewrite map_map. induction HF as [|cmds cs Hc _ IH]; constructor; auto. split; [apply quiet_client; auto|]. split; auto.
Qed.
Lemma forall2_put {X Y} (R : X -> Y -> Prop) l l' i y y' : Forall2 R l l' -> l' !! i = Some y -> (forall x, R x y -> R x y') -> Forall2 R l (<[i := y']> l').
Proof.
  intros H. revert i. induction H as [|x z l l' Hx Hl IH]; intros i Hi Hr; [discriminate|]. destruct i as [|i]; simpl in *.
  - injection Hi as ->. constructor; auto.
  - constructor; auto.
Qed.
Lemma fupd_free L pos x : (forall p, wr (L p) = false /\ pend (L p) = false) -> wr x = false -> pend x = false -> forall p, wr (fupd L pos x p) = false /\ pend (fupd L pos x p) = false.
Proof. intros H H1 H2 p. unfold fupd. match goal with |- context [if ?b then _ else _] => destruct b end; auto. Qed.
Lemma ri_step cs c c' : RI cs c -> cstep T c c' -> RI cs c'.
Proof.
  intros [I1 I2 I3] H. assert (Hq : forall i t, ths c !! i = Some t -> quiet T d (tcode t) /\ ann t = false).
  { intros i t Hi. destruct (Forall2_lookup_r _ _ _ _ _ I3 Hi) as (x & _ & Hq & Ha & _). auto. }
  destruct H as [d0 L ts i p d' p' Hi Hp|d0 L ts i pos k n Hi HL|d0 L ts i pos k n Hi HL|d0 L ts i pos k Hi HL|d0 L ts i pos k n b Hi HL|d0 L ts i pos k n b Hi HL]; cbn in *; subst d0;
    destruct (Hq _ _ Hi) as [Q Ha]; cbn in Q, Ha.
  - assert (Hs : d' = d /\ quiet T d p' /\ forall out, runs T d p' out -> runs T d p out). { inversion Hp; subst; inversion Q; subst; repeat split; auto; intros out Hr; try (econstructor; eauto). }
    destruct Hs as (-> & Q' & Hr). constructor; cbn; auto. eapply forall2_put; eauto. intros x (_ & _ & Hx). cbn in *. split; auto.
  - inversion Q; subst. constructor; cbn; auto; [apply fupd_free; auto|]. eapply forall2_put; eauto. intros x (_ & _ & Hx). cbn in *. split; auto. split; auto. intros out Hr. apply Hx. constructor. auto.
  - inversion Q.
  - discriminate.
  - inversion Q; subst. destruct (I2 pos) as [_ Hb]. rewrite HL in Hb. cbn in Hb. constructor; cbn; auto; [apply fupd_free; auto|]. eapply forall2_put; eauto. intros x (_ & _ & Hx). cbn in *. split; auto. split; auto. intros out Hr. apply Hx. constructor. auto.
  - inversion Q.
Qed.
Lemma ri_steps cs c : Forall (Forall reading) cs -> rtc (cstep T) (clients d cs) c -> RI cs c.
Proof. intros HF. intros R. assert (H : forall c1, rtc (cstep T) c1 c -> RI cs c1 -> RI cs c) by (clear -HT; induction 1; auto; intros; eauto using ri_step). eapply H; [exact R|apply ri_start; auto]. Qed.
Context (cs : list (list command)) (c : conf (list rdata)) (HF : Forall (Forall reading) cs) (R : rtc (cstep T) (clients d cs) c).
Lemma readers_free : cdb c = d /\ forall i t, ths c !! i = Some t -> ~ waits c t /\ ~ disturbs t.
Proof.
  destruct (ri_steps cs c HF R) as [I1 I2 I3]. split; auto. intros i t Hi. destruct (Forall2_lookup_r _ _ _ _ _ I3 Hi) as (x & _ & Q & Ha & _). unfold waits, disturbs.
  destruct (tcode t) as [ | | | | | | | | | | | | | | |pos m k|] eqn:E; auto; try (split; [tauto|]; inversion Q; tauto). inversion Q; subst. split; [|tauto]. destruct (I2 pos) as [-> ->]. intros [?|?]; discriminate.
Qed.
Lemma readers_replies i cmds t rs : cs !! i = Some cmds -> ths c !! i = Some t -> tcode t = Ret rs -> Forall2 (fun cmd r => runs T d (exec_in_db cmd) (Done r d)) cmds rs.
Proof.
  intros Hc Hi Ht. destruct (ri_steps cs c HF R) as [I1 I2 I3]. destruct (Forall2_lookup_r _ _ _ _ _ I3 Hi) as (x & Hx & _ & _ & Hr). assert (x = cmds) as -> by congruence.
  rewrite Ht in Hr. specialize (Hr _ (R_Ret _ _ _)). rewrite Forall_lookup in HF. destruct (readers_alone T d [] cmds rs d HT (HF _ _ Hc) Hr) as (_ & rs' & -> & H). exact H.
Qed.
End Clients.
