(** Commands with one section are atomic as long as no deadline passes. *)
From Verif Require Export Lin SerialProofs.

(** As [turn], the clock going on during the command. *)
Inductive turn0 {P : Setup} (T : Z -> Prop) : turns_state -> turns_state -> Prop :=
| Turn0 d cl i acc cmd rest r d' : cl !! i = Some (acc, cmd :: rest) -> runs T d (exec_in_db cmd) (Done r d') ->
    turn0 T (d, cl) (d', <[i := (acc ++ [r], rest)]> cl).

Section WithParams.
Context {P : Setup} (T : Z -> Prop) (K : bytes -> Prop) (t0 lim : Z).
Hypothesis HT0 : T t0.
Hypothesis HT : forall t, T t -> t <= lim.

(** The keys in [K] do not expire. *)
Definition alive (a : data) : Prop := forall key t, K key -> dends a !! key = Some t -> lim <= t.

(** ** Programs with one section *)
Inductive post {A} (r : A) : prog A -> Prop :=
| Po_ret : post r (Ret r)
| Po_rel pos m k : post r k -> post r (Rel pos m k).
Inductive phase := Pre | In.
Inductive single {A} : phase -> prog A -> Prop :=
| S_ret a : single Pre (Ret a)
| S_crash ph : single ph Crash
| S_hang ph : single ph Hang
| S_now ph k : (forall t, T t -> single ph (k t)) -> single ph (Now k)
| S_range ph l k : (forall l', single ph (k l')) -> single ph (Range l k)
| S_eget0 key k q : K key -> single Pre q -> k None = q ->
    (forall t, lim <= t -> exists k2, k (Some t) = Now k2 /\ forall now, T now -> k2 now = q) -> single Pre (EGet key k)
| S_eget key k : K key -> (forall x, (forall t, x = Some t -> lim <= t) -> single In (k x)) -> single In (EGet key k)
| S_dget key k : (forall x, single In (k x)) -> single In (DGet key k)
| S_dset key v k : (forall x, single In (k x)) -> single In (DSet key v k)
| S_dmut key v k : single In k -> single In (DMut key v k)
| S_ddel key k : (forall x, single In (k x)) -> single In (DDel key k)
| S_cntload k g k0 : (forall c, k c = CntStore (g c) k0) -> single In k0 -> single In (CntLoad k)
| S_cntstore n k : single In k -> single In (CntStore n k)
| S_eset key t k : lim <= t -> single In k -> single In (ESet key t k)
| S_edel key k : (forall x, single In (k x)) -> single In (EDel key k)
| S_acq ph pos m k : single In k -> single ph (Acq pos m k)
| S_rel pos m k r : post r k -> single In (Rel pos m k).

(** ** Steps of [pbind p f] are steps of [p] *)
Definition is_ret {A} (p : prog A) : Prop := exists a, p = Ret a.
Lemma is_ret_dec {A} (p : prog A) : {is_ret p} + {~ is_ret p}.
Proof. destruct p; try (right; intros [? ?]; discriminate). left. eexists; reflexivity. Qed.
Lemma bind_prim {A C} d (p : prog A) (f : A -> prog C) d' q : prim T d (pbind p f) d' q -> ~ is_ret p -> exists p', prim T d p d' p' /\ q = pbind p' f.
Proof.
  intros H Hr. destruct p; cbn in H; inversion H; subst; try (eexists; split; [econstructor; eauto|reflexivity]).
  all: destruct Hr; eexists; reflexivity.
Qed.
Lemma bind_dprim {A C} a (p : prog A) (f : A -> prog C) b q : dprim T a (pbind p f) b q -> ~ is_ret p -> exists p', dprim T a p b p' /\ q = pbind p' f.
Proof. intros (n & n' & H) Hr. destruct (bind_prim _ _ _ _ _ H Hr) as (p' & Hp & ->). exists p'. split; auto. exists n, n'. auto. Qed.
Lemma bind_acq {A C} (p : prog A) (f : A -> prog C) pos m k : pbind p f = Acq pos m k -> ~ is_ret p -> exists k', p = Acq pos m k' /\ k = pbind k' f.
Proof. intros H Hr. destruct p; try discriminate; cbn in H; [destruct Hr; eexists; eauto|]. injection H as <- <- <-. eauto. Qed.
Lemma bind_rel {A C} (p : prog A) (f : A -> prog C) pos m k : pbind p f = Rel pos m k -> ~ is_ret p -> exists k', p = Rel pos m k' /\ k = pbind k' f.
Proof. intros H Hr. destruct p; try discriminate; cbn in H; [destruct Hr; eexists; eauto|]. injection H as <- <- <-. eauto. Qed.

Lemma single_in_noret {A} (p : prog A) : single In p -> ~ is_ret p.
Proof. intros H [a ->]. inversion H. Qed.
(** An access inside the section. *)
Lemma single_dprim {A} a (p : prog A) b p' : single In p -> alive a -> dprim T a p b p' -> single In p' /\ alive b.
Proof.
  intros Hs Ha (n & n' & H). destruct a as [v e], b as [v' e']. unfold with_cnt, alive in *. cbn in *.
  destruct p; inversion H; subst; clear H; inversion Hs; subst; cbn in *; split; eauto.
  - match goal with H : forall c, _ = CntStore _ _ |- _ => rewrite H end. constructor. auto.
  - intros key0 t0' HK0 Ht. destruct (decide (key0 = key)) as [->|]; [rewrite lookup_insert in Ht; injection Ht as <-; auto|rewrite lookup_insert_ne in Ht by auto; eauto].
  - intros key0 t0' HK0 Ht. apply lookup_delete_Some in Ht as [_ Ht]. eauto.
Qed.
Lemma inside_bind {A C} a (p : prog A) (f : A -> prog C) b q : inside T a (pbind p f) b q -> single In p -> alive a ->
  exists p', inside T a p b p' /\ q = pbind p' f /\ single In p' /\ alive b.
Proof.
  intros H. remember (pbind p f) as pf eqn:E. revert p E. induction H as [a pf|a pf a1 p1 b q Hp _ IH|a pos m k b q _ IH]; intros p E Hs Ha.
  - exists p. split; [apply In_refl|]. auto.
  - subst. pose proof (single_in_noret _ Hs) as Hr. destruct (bind_dprim _ _ _ _ _ Hp Hr) as (p' & Hp' & ->).
    destruct (single_dprim _ _ _ _ Hs Ha Hp') as [Hs' Ha']. destruct (IH p' eq_refl Hs' Ha') as (p2 & H1 & H2). exists p2. split; auto. eapply In_prim; eauto.
  - pose proof (single_in_noret _ Hs) as Hr. symmetry in E. destruct (bind_acq _ _ _ _ _ E Hr) as (k' & -> & ->).
    assert (Hk : single In k') by (inversion Hs; auto). destruct (IH k' eq_refl Hk Ha) as (p2 & H1 & H2). exists p2. split; auto. apply In_acq; auto.
Qed.
Lemma post_runs {A} (r : A) p : post r p -> forall D, runs T D p (Done r D).
Proof. induction 1; intros D; constructor; auto. Qed.
(** The section, executed on any database with these contents. *)
Definition strip {A} (p : prog A) : prog A := match p with CntStore _ k => k | _ => p end.
Lemma strip_runs {A} (p : prog A) (Q : outcome A -> Prop) a : (forall D, data_of D = a -> exists out, Q out /\ runs T D (strip p) out) ->
  forall D, data_of D = a -> exists out, Q out /\ runs T D p out.
Proof.
  intros H D HD. destruct p; cbn in H; auto. destruct (H (mkDb (dict D) (exps D) c)) as (out & H1 & H2); [rewrite <- HD; reflexivity|].
  exists out. split; auto. constructor. auto.
Qed.
Lemma step_runs {A} a (p : prog A) a1 p1 (Q : outcome A -> Prop) : single In p -> dprim T a p a1 p1 ->
  (forall D, data_of D = a1 -> exists out, Q out /\ runs T D (strip p1) out) ->
  forall D, data_of D = a -> exists out, Q out /\ runs T D (strip p) out.
Proof.
  intros Hs (n & n' & H) HQ D <-. pose proof (strip_runs _ _ _ HQ) as HR.
  assert (HK : forall d1 k, data_of d1 = a1 -> p1 = k -> exists out, Q out /\ runs T d1 k out) by (intros d1 k Hd <-; auto).
  destruct D as [dv de dc], a1 as [v1 e1]. unfold with_cnt, data_of in *. cbn in *.
  destruct p; inversion H; subst; clear H; cbn [strip].
  all: try (match goal with Hk : forall d1 k, _ -> ?q = k -> _ |- _ =>
      edestruct (Hk (mkDb _ _ dc) q eq_refl eq_refl) as (out & H1 & H2); exists out; split; [exact H1|econstructor; eauto] end; fail).
  - apply HR. reflexivity.
  - inversion Hs; subst. match goal with H : forall c, _ = CntStore _ _ |- _ => rename H into Hc end. rewrite Hc in HQ. cbn in HQ.
    destruct (HQ (mkDb v1 e1 (g dc)) eq_refl) as (out & Ho1 & Ho2). exists out. split; auto. apply R_CntLoad. cbn. rewrite Hc. apply R_CntStore. exact Ho2.
  - apply HR. reflexivity.
Qed.
Lemma inside_runs_strip {A} a (p : prog A) b q : inside T a p b q -> forall pos m k', q = Rel pos m k' -> single In p -> alive a ->
  exists r, post r k' /\ forall D, data_of D = a -> exists out, (exists D', out = Done r D' /\ data_of D' = b) /\ runs T D (strip p) out.
Proof.
  induction 1 as [a p|a p a1 p1 b q Hp Hi IH|a pos0 m0 k b q _ IH]; intros pos m k' Hq Hs Ha.
  - subst. inversion Hs; subst. exists r. split; auto. intros D <-. eexists. split; [eauto|]. cbn. constructor. apply post_runs; auto.
  - destruct (single_dprim _ _ _ _ Hs Ha Hp) as [Hs1 Ha1]. destruct (IH pos m k' Hq Hs1 Ha1) as (r & Hr & HD). exists r. split; auto.
    eapply step_runs; eauto.
  - assert (Hk : single In k) by (inversion Hs; auto). destruct (IH pos m k' Hq Hk Ha) as (r & Hr & HD). exists r. split; auto.
    intros D E. destruct (strip_runs _ _ _ HD D E) as (out & H1 & H2). exists out. split; auto. cbn. constructor. auto.
Qed.
Lemma inside_runs {A} a (p : prog A) b pos m k' D : inside T a p b (Rel pos m k') -> single In p -> alive a -> data_of D = a ->
  exists r D', post r k' /\ data_of D' = b /\ runs T D p (Done r D').
Proof.
  intros H Hs Ha HD. destruct (inside_runs_strip _ _ _ _ H _ _ _ eq_refl Hs Ha) as (r & Hr & HQ).
  destruct (strip_runs _ _ _ HQ D HD) as (out & (D' & -> & H1) & H2). eauto.
Qed.

(** ** The simulation *)
Lemma pre_step {A} a (p : prog A) a' p' : single Pre p -> alive a -> dprim T a p a' p' ->
  single Pre p' /\ forall D out, alive (data_of D) -> runs T D p' out -> runs T D p out.
Proof.
  intros Hs Ha (n & n' & H). destruct a as [v e]. unfold with_cnt, alive in Ha, H. cbn in Ha, H.
  destruct p; inversion H; subst; clear H; inversion Hs; subst.
  - split; auto.
  - split; auto. intros. econstructor; eauto.
  - split; auto. intros. econstructor; eauto.
  - cbn in *. match goal with H : forall t, lim <= t -> _ |- _ => rename H into Hk end. match goal with H : K key |- _ => rename H into HKk end.
    assert (Hrun : forall D out, alive (data_of D) -> runs T D (k None) out -> runs T D (EGet key k) out).
    { intros D out HD R. constructor. destruct (exps D !! key) as [t|] eqn:E; auto. destruct (Hk t (HD key t HKk E)) as (k2 & E2 & Hq). rewrite E2.
      econstructor; [exact HT0|]. rewrite Hq; auto. }
    match goal with |- context [k (?m !! key)] => destruct (m !! key) as [t|] eqn:E end; [|auto]. destruct (Hk t (Ha key t HKk E)) as (k2 & E2 & Hq). rewrite E2. split.
    + constructor. intros now Hnow. rewrite Hq; auto.
    + intros D out HD R. apply Hrun; auto. inversion R; subst. match goal with H : T ?t |- _ => rewrite (Hq t) in * by auto end. auto.
Qed.

Definition cont (acc : list rdata) (rest : list command) (x : rdata) : prog (list rdata) := client_from (acc ++ [x]) rest.
Definition lin_ok (cmd : command) : Prop := single Pre (exec_in_db cmd).
Definition replay (p : prog rdata) (cmd : command) : Prop :=
  forall D out, alive (data_of D) -> runs T D p out -> runs T D (exec_in_db cmd) out.
Inductive lthr : prog (list rdata) -> list rdata -> list command -> Prop :=
| L_idle acc todo : lthr (client_from acc todo) acc todo
| L_pre acc cmd rest p : single Pre p -> replay p cmd -> lthr (pbind p (cont acc rest)) acc (cmd :: rest)
| L_post acc r rest p : post r p -> lthr (pbind p (cont acc rest)) (acc ++ [r]) rest.
Inductive settled : prog (list rdata) -> list rdata -> list command -> Prop :=
| Se_done acc : settled (Ret acc) acc []
| Se_pre acc cmd rest p : single Pre p -> ~ is_ret p -> replay p cmd -> settled (pbind p (cont acc rest)) acc (cmd :: rest)
| Se_post acc r rest p : post r p -> ~ is_ret p -> settled (pbind p (cont acc rest)) (acc ++ [r]) rest.
Lemma settled_lthr q acc todo : settled q acc todo -> lthr q acc todo.
Proof. intros []; [apply (L_idle _ [])|apply L_pre; auto|apply L_post; auto]. Qed.
Lemma one_turn D (cl : list (list rdata * list command)) i acc cmd rest r D' : cl !! i = Some (acc, cmd :: rest) ->
  runs T D (exec_in_db cmd) (Done r D') -> rtc (turn0 T) (D, cl) (D', <[i := (acc ++ [r], rest)]> cl).
Proof. intros. apply rtc_once. econstructor; eauto. Qed.
Lemma settle_idle D i todo : forall acc cl, cl !! i = Some (acc, todo) -> Forall lin_ok todo -> exists acc' todo',
  rtc (turn0 T) (D, cl) (D, <[i := (acc', todo')]> cl) /\ settled (client_from acc todo) acc' todo' /\ Forall lin_ok todo'.
Proof.
  induction todo as [|cmd rest IH]; intros acc cl Hi HF.
  - exists acc, []. split; [rewrite list_insert_id by auto; apply rtc_refl|]. split; auto. constructor.
  - inversion HF as [|? ? Hc HF']; subst. destruct (is_ret_dec (exec_in_db cmd)) as [[x E]|Hr].
    + destruct (IH (acc ++ [x]) (<[i := (acc ++ [x], rest)]> cl)) as (acc' & todo' & R & Hs & Hf); auto.
      { apply list_lookup_insert. eapply lookup_lt_Some; eauto. }
      exists acc', todo'. split; [|split; auto].
      * rewrite list_insert_insert in R. etransitivity; [|exact R]. eapply one_turn; eauto. rewrite E. constructor.
      * cbn [client_from]. rewrite E. exact Hs.
    + exists acc, (cmd :: rest). split; [rewrite list_insert_id by auto; apply rtc_refl|]. split; auto.
      change (client_from acc (cmd :: rest)) with (pbind (exec_in_db cmd) (cont acc rest)).
      apply Se_pre; [exact Hc|exact Hr|]. intros D0 out _ R. exact R.
Qed.
Lemma settle D (cl : list (list rdata * list command)) i q acc todo : cl !! i = Some (acc, todo) -> lthr q acc todo -> Forall lin_ok todo -> alive (data_of D) -> exists acc' todo',
  rtc (turn0 T) (D, cl) (D, <[i := (acc', todo')]> cl) /\ settled q acc' todo' /\ Forall lin_ok todo'.
Proof.
  intros Hi Hl HF Ha. destruct Hl as [acc todo|acc cmd rest p Hs Hr|acc r rest p Hp].
  - apply settle_idle; auto.
  - destruct (is_ret_dec p) as [[x ->]|Hn].
    + inversion HF; subst. destruct (settle_idle D i rest (acc ++ [x]) (<[i := (acc ++ [x], rest)]> cl)) as (acc' & todo' & R & Hs' & Hf); auto.
      { apply list_lookup_insert. eapply lookup_lt_Some; eauto. }
      exists acc', todo'. split; [|split; auto]. rewrite list_insert_insert in R. etransitivity; [|exact R]. eapply one_turn; eauto. apply Hr; auto. constructor.
    + exists acc, (cmd :: rest). split; [rewrite list_insert_id by auto; apply rtc_refl|]. split; auto. constructor; auto.
  - destruct (is_ret_dec p) as [[x ->]|Hn].
    + inversion Hp; subst. apply settle_idle; auto.
    + exists (acc ++ [r]), rest. split; [rewrite list_insert_id by auto; apply rtc_refl|]. split; auto. constructor; auto.
Qed.
Record LI (s : data * list (prog (list rdata))) (z : turns_state) : Prop := mkLI {
  li_data : data_of z.1 = s.1;
  li_alive : alive s.1;
  li_len : length s.2 = length z.2;
  li_th : forall i q acc todo, s.2 !! i = Some q -> z.2 !! i = Some (acc, todo) -> lthr q acc todo /\ Forall lin_ok todo }.
Lemma li_get a qs D cl (i : nat) q : LI (a, qs) (D, cl) -> qs !! i = Some q -> exists acc todo, cl !! i = Some (acc, todo) /\ lthr q acc todo /\ Forall lin_ok todo.
Proof.
  intros L Hi. destruct (lookup_lt_is_Some_2 cl i) as [[acc todo] Hc]; [pose proof (li_len _ _ L) as E; cbn in E; rewrite <- E; eapply lookup_lt_Some; eauto|].
  exists acc, todo. split; auto. eapply (li_th _ _ L); eauto.
Qed.
(** After a step of goroutine [i]. *)
Lemma li_upd a qs D cl a' D' i q acc todo : LI (a, qs) (D, cl) -> data_of D' = a' -> alive a' -> lthr q acc todo -> Forall lin_ok todo ->
  LI (a', <[i := q]> qs) (D', <[i := (acc, todo)]> cl).
Proof.
  intros L Hd Ha Hl HF. constructor; cbn; auto.
  - rewrite !insert_length. apply (li_len _ _ L).
  - intros j q' acc' todo' Hq Hc. apply lookup_upd in Hq as [[-> ->]|[Hn Hq]].
    + assert (Hj : (j < length cl)%nat). { apply lookup_lt_Some in Hc. rewrite insert_length in Hc. auto. }
      rewrite list_lookup_insert in Hc by auto. injection Hc as <- <-. auto.
    + rewrite list_lookup_insert_ne in Hc by auto. eapply (li_th _ _ L); eauto.
Qed.
Lemma section_alive D (cl : list (list rdata * list command)) j acc todo q pos m k a b q' : cl !! j = Some (acc, todo) -> lthr q acc todo -> Forall lin_ok todo -> data_of D = a -> alive a ->
  q = Acq pos m k -> inside T a k b q' -> alive b.
Proof.
  intros Hj Hl HF HD Ha E Hi. destruct (settle D cl j q acc todo Hj Hl HF) as (acc' & todo' & _ & Hs & _); [subst; auto|].
  clear Hl. revert E. destruct Hs as [acc'|acc' cmd rest p Hs Hr _|acc' r rest p Hp Hr]; intros E; [discriminate| |].
  - destruct (bind_acq _ _ _ _ _ E Hr) as (k' & -> & ->). inversion Hs; subst.
    match goal with H : single In k' |- _ => destruct (inside_bind _ _ _ _ _ Hi H Ha) as (_ & _ & _ & _ & Hb); exact Hb end.
  - destruct Hp; [destruct Hr; eexists; reflexivity|discriminate].
Qed.
Lemma outside_step a qs D cl i q q' b : LI (a, qs) (D, cl) -> qs !! i = Some q -> dprim T b q b q' -> alive b ->
  exists cl', rtc (turn0 T) (D, cl) (D, cl') /\ LI (a, <[i := q']> qs) (D, cl').
Proof.
  intros L Hi Hp Hb. destruct (li_get _ _ _ _ _ _ L Hi) as (acc & todo & Hc & Hl & HF). pose proof (li_data _ _ L) as HD. pose proof (li_alive _ _ L) as Ha. cbn in HD, Ha.
  destruct (settle D cl i q acc todo Hc Hl HF) as (acc' & todo' & R & Hs & HF'); [rewrite HD; auto|].
  destruct Hs as [acc'|acc' cmd rest p Hs Hr Hrep|acc' r rest p Hpo Hr].
  - destruct Hp as (? & ? & Hp). inversion Hp.
  - destruct (bind_dprim _ _ _ _ _ Hp Hr) as (p' & Hp' & ->). destruct (pre_step _ _ _ _ Hs Hb Hp') as [Hs' Hrun].
    eexists. split; [exact R|]. apply li_upd with (a := a) (D := D); auto. apply L_pre; auto. intros D0 out HD0 R0. apply Hrep; auto.
  - destruct (bind_dprim _ _ _ _ _ Hp Hr) as (p' & (? & ? & Hp') & ->). destruct Hpo; inversion Hp'.
Qed.
Lemma li_step a qs a' qs' D cl : astep T (a, qs) (a', qs') -> LI (a, qs) (D, cl) -> exists D' cl', rtc (turn0 T) (D, cl) (D', cl') /\ LI (a', qs') (D', cl').
Proof.
  intros H L. pose proof (li_data _ _ L) as HD. pose proof (li_alive _ _ L) as Ha. cbn in HD, Ha.
  inversion H as [? ? i pos m k ? pos' m' k' Hi Hin|? ? i pos m k Hi|? ? i p p' Hi Hp|? ? i p p' j pos m k b q Hn Hi Hj Hin Hp]; subst.
  - destruct (li_get _ _ _ _ _ _ L Hi) as (acc & todo & Hc & Hl & HF). destruct (settle D cl i _ acc todo Hc Hl HF) as (acc' & todo' & R & Hs & HF'); auto.
    remember (Acq pos m k) as q eqn:E. destruct Hs as [acc'|acc' cmd rest p Hs Hr Hrep|acc' r rest p Hpo Hr]; [discriminate| |].
    + destruct (bind_acq _ _ _ _ _ E Hr) as (k0 & -> & ->). assert (Hk0 : single In k0) by (inversion Hs; auto).
      destruct (inside_bind _ _ _ _ _ Hin Hk0 Ha) as (p' & Hin' & E' & Hs' & Ha').
      symmetry in E'. destruct (bind_rel _ _ _ _ _ E' (single_in_noret _ Hs')) as (k1 & -> & ->).
      destruct (inside_runs _ _ _ _ _ _ D Hin' Hk0 Ha eq_refl) as (r & D' & Hpost & HD' & Hrun).
      exists D', (<[i := (acc' ++ [r], rest)]> cl). split.
      * etransitivity; [exact R|]. replace (<[i := (acc' ++ [r], rest)]> cl) with (<[i := (acc' ++ [r], rest)]> (<[i := (acc', cmd :: rest)]> cl)) by apply list_insert_insert.
        eapply one_turn; [apply list_lookup_insert; eapply lookup_lt_Some; eauto|]. apply Hrep; auto. constructor. auto.
      * apply li_upd with (a := data_of D) (D := D); auto. { apply L_post; auto. } inversion HF'; auto.
    + destruct Hpo; [destruct Hr; eexists; reflexivity|discriminate].
  - destruct (li_get _ _ _ _ _ _ L Hi) as (acc & todo & Hc & Hl & HF). destruct (settle D cl i _ acc todo Hc Hl HF) as (acc' & todo' & R & Hs & HF'); auto.
    remember (Rel pos m k) as q eqn:E. destruct Hs as [acc'|acc' cmd rest p Hs Hr Hrep|acc' r rest p Hpo Hr]; [discriminate| |].
    + destruct (bind_rel _ _ _ _ _ E Hr) as (k0 & -> & ->). inversion Hs.
    + destruct (bind_rel _ _ _ _ _ E Hr) as (k0 & -> & ->). exists D, (<[i := (acc' ++ [r], rest)]> cl). split; auto.
      apply li_upd with (a := data_of D) (D := D); auto. apply L_post. inversion Hpo; auto.
  - exists D. eapply outside_step; eauto.
  - exists D. destruct (li_get _ _ _ _ _ _ L Hj) as (acc & todo & Hc & Hl & HF). eapply outside_step; eauto. eapply section_alive; eauto.
Qed.
Lemma li_steps s s' : rtc (astep T) s s' -> forall z, LI s z -> exists z', rtc (turn0 T) z z' /\ LI s' z'.
Proof.
  induction 1 as [s|[a qs] [a1 qs1] s' Hs _ IH]; intros [D cl] L; [exists (D, cl); split; [apply rtc_refl|auto]|].
  destruct (li_step _ _ _ _ _ _ Hs L) as (D1 & cl1 & R1 & L1). destruct (IH _ L1) as (z' & R' & L'). exists z'. split; auto. etransitivity; eauto.
Qed.
Lemma li_start d cs : alive (data_of d) -> Forall (Forall lin_ok) cs -> LI (data_of d, map client cs) (d, before cs).
Proof.
  intros Ha HF. constructor; cbn; auto.
  - unfold before. rewrite !map_length. auto.
  - intros i q acc todo Hq Hc. apply list_lookup_fmap_inv in Hq as (cmds & -> & Hi). apply list_lookup_fmap_inv in Hc as (cmds' & E & Hi').
    injection E as -> ->. assert (cmds' = cmds) as -> by congruence. split; [apply L_idle|]. eapply Forall_lookup_1 in HF; eauto.
Qed.
Lemma li_finish a rss D cl : LI (a, map Ret rss) (D, cl) -> rtc (turn0 T) (D, cl) (D, served rss).
Proof.
  intros L. assert (Hlen : length cl = length rss). { pose proof (li_len _ _ L) as E. cbn in E. rewrite map_length in E. auto. }
  assert (H : forall n, (n <= length rss)%nat -> exists cl', rtc (turn0 T) (D, cl) (D, cl') /\ LI (a, map Ret rss) (D, cl') /\
    forall i rs, (i < n)%nat -> rss !! i = Some rs -> cl' !! i = Some (rs, [])).
  { induction n as [|n IH]; intros Hn; [exists cl; split; [apply rtc_refl|split; auto; intros; lia]|].
    destruct IH as (cl' & R & L' & Hd); [lia|]. destruct (lookup_lt_is_Some_2 rss n) as [rs Hrs]; [lia|].
    assert (Hq : (map Ret rss : list (prog (list rdata))) !! n = Some (Ret rs)) by (rewrite list_lookup_fmap, Hrs; auto).
    destruct (li_get _ _ _ _ _ _ L' Hq) as (acc & todo & Hc & Hl & HF).
    destruct (settle D cl' n _ acc todo Hc Hl HF) as (acc' & todo' & R' & Hs & HF'); [pose proof (li_data _ _ L') as Ed; cbn in Ed; rewrite Ed; apply (li_alive _ _ L')|].
    exists (<[n := (acc', todo')]> cl'). split; [etransitivity; eauto|]. split.
    - replace (map Ret rss) with (<[n := Ret rs]> (map Ret rss : list (prog (list rdata)))) by (apply list_insert_id; auto).
      apply li_upd with (a := a) (D := D); auto; [apply (li_data _ _ L')|apply (li_alive _ _ L')|apply settled_lthr; auto].
    - intros i rs' Hi Hrs'. destruct (decide (n = i)) as [<-|Hne].
      + rewrite list_lookup_insert by (eapply lookup_lt_Some; eauto). assert (rs' = rs) as -> by congruence.
        remember (Ret rs) as q eqn:E. destruct Hs as [acc'|acc' cmd rest p Hs Hr Hrep|acc' r rest p Hpo Hr].
        * injection E as ->. auto.
        * exfalso. destruct p; try discriminate. apply Hr. eexists; eauto.
        * exfalso. destruct p; try discriminate. apply Hr. eexists; eauto.
      + rewrite list_lookup_insert_ne by auto. apply Hd; auto. lia. }
  destruct (H (length rss)) as (cl' & R & L' & Hd); [lia|]. replace (served rss) with cl'; auto.
  apply list_eq. intros i. unfold served. rewrite list_lookup_fmap. destruct (rss !! i) as [rs|] eqn:E; cbn.
  - apply Hd; auto. eapply lookup_lt_Some; eauto.
  - apply lookup_ge_None. apply lookup_ge_None in E. pose proof (li_len _ _ L') as E'. cbn in E'. rewrite map_length in E'. lia.
Qed.
End WithParams.
