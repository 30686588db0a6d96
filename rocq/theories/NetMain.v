(** The concurrent server is linearizable: the simulation. *)
From Verif Require Export NetProofs.

Lemma good_arrive {P : Setup} {A} u s (c : conf A) hs i x b p : good u s c hs -> ths c !! i = Some (mkT (Ret x) b) -> Wf.wf (fun _ => True) u s Idle Idle p ->
  hs !! i = Some Idle /\ b = false /\ good u s (mkC (cdb c) (lk c) (<[i := mkT p false]> (ths c))) hs.
Proof.
  intros G Hi Hp. destruct (get_h _ _ _ _ _ _ G Hi) as (h & Hh & W & _ & Ha). cbn in W, Ha. inversion W; subst.
  assert (b = false) as -> by (destruct b; auto; destruct (Ha eq_refl) as (? & ? & ?); discriminate).
  split; auto. split; auto. destruct G as [G1 G2 G3 G4 G5]. constructor; cbn; auto.
  - eapply forall2_upd; eauto. split; auto. split; cbn; auto. discriminate.
  - intros q. rewrite G4. pose proof (total_insert (wants q) (ths c) i _ (mkT p false) Hi) as E. rewrite !wants_false in E. lia.
Qed.
Lemma sim_arrive {P : Setup} {A} T (c : conf A) hs a qs i t p : sim T c hs a qs -> ths c !! i = Some t -> hs !! i = Some Idle ->
  sim T (mkC (cdb c) (lk c) (<[i := mkT p false]> (ths c))) hs a (<[i := p]> qs).
Proof.
  intros S Hi Hh. constructor; cbn.
  - intros j h t' Hj Ht. apply lookup_upd in Ht as [[-> ->]|[Hn Ht]].
    + assert (h = Idle) as -> by congruence. exists p. split; [|reflexivity]. apply list_lookup_insert. rewrite (s_len _ _ _ _ _ S). eapply lookup_lt_Some; eauto.
    + rewrite list_lookup_insert_ne by auto. apply (s_th _ _ _ _ _ S j h t' Hj Ht).
  - apply (s_free _ _ _ _ _ S).
  - rewrite insert_length. apply (s_len _ _ _ _ _ S).
Qed.
Lemma inside_alive {P : Setup} {A} T K lim a (p : prog A) b q : inside T a p b q -> single T K lim In p -> alive K lim a -> alive K lim b.
Proof.
  induction 1 as [a p|a p a1 p1 b q Hp _ IH|a pos m k b q _ IH]; intros Hs Ha; auto.
  - destruct (single_dprim _ _ _ _ _ _ _ Hs Ha Hp). auto.
  - apply IH; auto. inversion Hs; auto.
Qed.

Section WithParams.
Context {P : Setup} (T : Z -> Prop) (K : bytes -> Prop) (t0 lim : Z).
Hypothesis HT0 : T t0.
Hypothesis HT : forall t, T t -> t <= lim.
Notation single := (single T K lim).
Notation alive := (alive K lim).
Notation replay := (replay T K lim).

Definition okc (cmd : command) : Prop := one_step cmd /\ far_deadlines T lim cmd /\ (forall k, k ∈ key_args cmd -> K k).
(** How far connection [i] is in its database: not executed in the reference, or executed. *)
Definition flight (s : conn) (j i : nat) (cmd : command) (z : alone) (q : prog rdata) : Prop :=
  (single Pre q /\ replay q cmd /\ z.2 !! i = Some (answered s)) \/
  (exists r, post r q /\ z.2 !! i = Some (answered s ++ [(cmd, r)])).
Record TI (x : server) (z : alone) (aq : list (data * list (prog rdata))) : Prop := mkTI {
  t_len : length aq = length (mdbs z.1);
  t_db : forall j a qs, aq !! j = Some (a, qs) -> alive a /\ exists D, mdbs z.1 !! j = Some D /\ data_of D = a;
  t_th : forall i s j a qs q, sess x !! i = Some s -> aq !! j = Some (a, qs) -> qs !! i = Some q ->
    is_ret q \/ exists cmd, busy s = Some (cmd, j);
  t_busy : forall i s cmd j a qs q, sess x !! i = Some s -> busy s = Some (cmd, j) -> aq !! j = Some (a, qs) -> qs !! i = Some q -> flight s j i cmd z q;
  t_idle : forall i s, sess x !! i = Some s -> busy s = None -> z.2 !! i = Some (answered s);
  t_cmds : forall i s, sess x !! i = Some s -> Forall okc (todo s) /\ forall cmd j, busy s = Some (cmd, j) -> okc cmd /\ is_select cmd = false }.

Lemma aq_upd (aq : list (data * list (prog rdata))) j a qs j' a' qs' : <[j := (a, qs)]> aq !! j' = Some (a', qs') -> (j = j' /\ a' = a /\ qs' = qs) \/ (j <> j' /\ aq !! j' = Some (a', qs')).
Proof. intros H. apply lookup_upd in H as [[-> E]|[H1 H2]]; [injection E as -> ->|]; auto. Qed.
Lemma flight_same s j i cmd z z' q : flight s j i cmd z q -> z'.2 !! i = z.2 !! i -> flight s j i cmd z' q.
Proof. intros [(H1 & H2 & H3)|(r & H1 & H2)] E; [left|right; exists r]; rewrite E; auto. Qed.
(** A step of connection [i] in database [j] that changes no contents. *)
Lemma ti_quiet x z aq j a qs i s q q' cmd : TI x z aq -> aq !! j = Some (a, qs) -> qs !! i = Some q -> sess x !! i = Some s -> busy s = Some (cmd, j) ->
  flight s j i cmd z q' -> TI x z (<[j := (a, <[i := q']> qs)]> aq).
Proof.
  intros [L1 L2 L3 L4 L5 L6] Hj Hi Hs Hb Hf. constructor; auto.
  - rewrite insert_length. auto.
  - intros j' a' qs' Hj'. apply aq_upd in Hj' as [(<- & -> & ->)|[_ Hj']]; eauto.
  - intros i' s' j' a' qs' q2 Hs' Hj' Hq. apply aq_upd in Hj' as [(<- & -> & ->)|[_ Hj']]; [|eauto].
    apply lookup_upd in Hq as [[<- ->]|[_ Hq]]; [|eauto]. right. exists cmd. congruence.
  - intros i' s' cmd' j' a' qs' q2 Hs' Hb' Hj' Hq. apply aq_upd in Hj' as [(<- & -> & ->)|[_ Hj']]; [|eauto].
    apply lookup_upd in Hq as [[<- ->]|[_ Hq]]; [|eauto]. assert (s' = s) as -> by congruence. assert (cmd' = cmd) as -> by congruence. exact Hf.
Qed.
(** The command of connection [i] is executed in the reference. *)
Lemma ti_exec x z aq j a qs i s q q' cmd D' r : TI x z aq -> aq !! j = Some (a, qs) -> qs !! i = Some q -> sess x !! i = Some s -> busy s = Some (cmd, j) ->
  (i < length z.2)%nat -> alive (data_of D') -> post r q' -> 
  TI x (put_at i j D' (answered s ++ [(cmd, r)]) z) (<[j := (data_of D', <[i := q']> qs)]> aq).
Proof.
  intros [L1 L2 L3 L4 L5 L6] Hj Hi Hs Hb Hlen Ha Hp. assert (Hjl : (j < length (mdbs z.1))%nat) by (rewrite <- L1; eapply lookup_lt_Some; eauto). constructor; auto.
  - cbn. rewrite !insert_length. auto.
  - intros j' a' qs' Hj'. cbn. apply aq_upd in Hj' as [(<- & -> & ->)|[Hn Hj']].
    + split; auto. exists D'. rewrite list_lookup_insert by auto. auto.
    + rewrite list_lookup_insert_ne by auto. eauto.
  - intros i' s' j' a' qs' q2 Hs' Hj' Hq. apply aq_upd in Hj' as [(<- & -> & ->)|[_ Hj']]; [|eauto].
    apply lookup_upd in Hq as [[<- ->]|[_ Hq]]; [|eauto]. right. exists cmd. congruence.
  - intros i' s' cmd' j' a' qs' q2 Hs' Hb' Hj' Hq. destruct (decide (i' = i)) as [->|Hn].
    + assert (s' = s) as -> by congruence. rewrite Hb in Hb'. injection Hb' as <- <-. apply aq_upd in Hj' as [(_ & -> & ->)|[Hn _]]; [|congruence].
      rewrite list_lookup_insert in Hq by (eapply lookup_lt_Some; eauto). injection Hq as <-. right. exists r. split; auto. cbn. apply list_lookup_insert. auto.
    + assert (Hf : flight s' j' i' cmd' z q2).
      { apply aq_upd in Hj' as [(<- & -> & ->)|[_ Hj']]; [|eauto]. rewrite list_lookup_insert_ne in Hq by auto. eauto. }
      eapply flight_same; [exact Hf|]. cbn. apply list_lookup_insert_ne. auto.
  - intros i' s' Hs' Hb'. cbn. destruct (decide (i' = i)) as [->|Hn]; [congruence|]. rewrite list_lookup_insert_ne by auto. auto.
Qed.

Section Run.
Variable (f : nat -> server) (z0 : alone).
Notation PI := (PI T f z0).
Lemma run_stop cmd D r D' : okc cmd -> alive (data_of D) -> runs T D (exec_in_db cmd) (Done r D') -> alive (data_of D') /\ exists now, T now /\ step now D cmd (Done r D').
Proof.
  intros (H1 & H2 & H3) Ha R. destruct (once_runs T K lim true _ (once_ok T lim HT K cmd H1 H2 H3) _ _ Ha R) as (_ & Hn & Hd).
  split; [eapply Hd; reflexivity|]. apply Hn. eauto.
Qed.
Lemma th_busy x z aq i j a qs q s : TI x z aq -> aq !! j = Some (a, qs) -> qs !! i = Some q -> sess x !! i = Some s -> ~ is_ret q ->
  exists cmd, busy s = Some (cmd, j) /\ flight s j i cmd z q /\ okc cmd /\ is_select cmd = false.
Proof.
  intros L Hj Hi Hs Hr. destruct (t_th _ _ _ L i s j a qs q Hs Hj Hi) as [H|(cmd & Hb)]; [tauto|]. exists cmd.
  split; auto. split; [eapply (t_busy _ _ _ L); eauto|]. destruct (t_cmds _ _ _ L i s Hs) as [_ Hc]. eapply Hc; eauto.
Qed.
Lemma ti_astep N g tr aq j a qs a' qs' : PI N g tr -> TI (f N) (g N) aq -> aq !! j = Some (a, qs) -> length qs = length (sess (f N)) -> astep T (a, qs) (a', qs') ->
  exists g' tr', PI N g' tr' /\ TI (f N) (g' N) (<[j := (a', qs')]> aq) /\ length qs' = length (sess (f N)).
Proof.
  intros HP L Hj Hlen H. destruct (t_db _ _ _ L _ _ _ Hj) as (Ha & D & HD & Hd).
  assert (Hget : forall i q, qs !! i = Some q -> ~ is_ret q -> exists s cmd, sess (f N) !! i = Some s /\ busy s = Some (cmd, j) /\ flight s j i cmd (g N) q /\ okc cmd /\ is_select cmd = false).
  { intros i q Hi Hr. destruct (lookup_lt_is_Some_2 (sess (f N)) i) as [s Hs]; [rewrite <- Hlen; eapply lookup_lt_Some; eauto|].
    destruct (th_busy _ _ _ _ _ _ _ _ _ L Hj Hi Hs Hr) as (cmd & Hx). exists s, cmd. auto. }
  assert (Hout : forall i p p' b, qs !! i = Some p -> alive b -> dprim T b p b p' -> exists g' tr', PI N g' tr' /\ TI (f N) (g' N) (<[j := (a, <[i := p']> qs)]> aq) /\ length (<[i := p']> qs) = length (sess (f N))).
  { intros i p p' b Hi Hb Hp. assert (Hr : ~ is_ret p) by (intros [x ->]; destruct Hp as (? & ? & Hp); inversion Hp).
    destruct (Hget i p Hi Hr) as (s & cmd & Hs & Hbs & Hf & _). exists g, tr. split; auto. split; [|rewrite insert_length; auto]. eapply ti_quiet; eauto.
    destruct Hf as [(H1 & H2 & H3)|(r & H1 & _)].
    - destruct (pre_step T K t0 lim HT0 _ _ _ _ H1 Hb Hp) as [Hs' Hrun]. left. split; auto. split; auto. intros D0 out HD0 R0. apply H2; auto.
    - destruct Hp as (? & ? & Hp). destruct H1; inversion Hp. }
  inversion H as [? ? i pos m k ? pos' m' k' Hi Hin|? ? i pos m k Hi|? ? i p p' Hi Hp|? ? i p p' j' pos m k b q Hn Hi Hj' Hin Hp]; subst.
  - assert (Hr : ~ is_ret (Acq pos m k)) by (intros [? ?]; discriminate).
    destruct (Hget i _ Hi Hr) as (s & cmd & Hs & Hb & Hf & Hok & Hsel). destruct Hf as [(H1 & H2 & H3)|(r & H1 & _)]; [|inversion H1].
    assert (Hk : single In k) by (inversion H1; auto).
    destruct (inside_runs _ _ _ _ _ _ _ _ _ D Hin Hk Ha eq_refl) as (r & D' & Hpost & <- & Hrun).
    assert (Hrun' : runs T D (exec_in_db cmd) (Done r D')) by (apply H2; [auto|constructor; auto]).
    destruct (run_stop _ _ _ _ Hok Ha Hrun') as (Ha' & now & Hnow & Hstep).
    destruct (pi_exec T f z0 N g tr i s cmd j D now r D' HP Hs Hb H3 Hsel HD Hnow Hstep) as (g' & tr' & HP' & E).
    exists g', tr'. split; auto. split; [|rewrite insert_length; auto]. rewrite E. eapply ti_exec; eauto. eapply lookup_lt_Some; eauto.
  - assert (Hr : ~ is_ret (Rel pos m k)) by (intros [? ?]; discriminate).
    destruct (Hget i _ Hi Hr) as (s & cmd & Hs & Hb & Hf & _). destruct Hf as [(H1 & _)|(r & H1 & H2)]; [inversion H1|].
    exists g, tr. split; auto. split; [|rewrite insert_length; auto]. eapply ti_quiet; eauto. right. exists r. split; auto. inversion H1; auto.
  - exact (Hout i p p' _ Hi Ha Hp).
  - refine (Hout i p p' b Hi _ Hp). assert (Hr : ~ is_ret (Acq pos m k)) by (intros [? ?]; discriminate).
    destruct (Hget j' _ Hj' Hr) as (s & cmd & Hs & Hb & Hf & _). destruct Hf as [(H1 & _)|(r & H1 & _)]; [|inversion H1].
    eapply inside_alive; [exact Hin| |exact Ha]. inversion H1; auto.
Qed.
Lemma ti_asteps N g tr aq j s s' : rtc (astep T) s s' -> PI N g tr -> TI (f N) (g N) aq -> aq !! j = Some s -> length s.2 = length (sess (f N)) ->
  exists g' tr', PI N g' tr' /\ TI (f N) (g' N) (<[j := s']> aq) /\ length s'.2 = length (sess (f N)).
Proof.
  intros R. revert g tr aq. induction R as [s|[a qs] [a1 qs1] s' Hs _ IH]; intros g tr aq HP L Hj Hl.
  - exists g, tr. rewrite list_insert_id by auto. auto.
  - destruct (ti_astep _ _ _ _ _ _ _ _ _ HP L Hj Hl Hs) as (g1 & tr1 & HP1 & L1 & Hl1).
    destruct (IH _ _ _ HP1 L1) as (g' & tr' & HP' & L' & Hl'); [apply list_lookup_insert; eapply lookup_lt_Some; eauto|exact Hl1|].
    exists g', tr'. rewrite list_insert_insert in L'. auto.
Qed.

(** The databases. *)
Definition CI (x : server) (aq : list (data * list (prog rdata))) : Prop := length aq = length (cores x) /\
  forall j c, cores x !! j = Some c -> exists hs a qs, aq !! j = Some (a, qs) /\ good true false c hs /\ sim T c hs a qs /\ length qs = length (sess x).
Definition NI (N : nat) : Prop := exists g tr aq, PI N g tr /\ TI (f N) (g N) aq /\ CI (f N) aq.

Lemma ci_upd sl cs ss j c c' hs a qs aq : CI (mkServer sl cs ss) aq -> cs !! j = Some c -> good true false c' hs -> sim T c' hs a qs -> length qs = length ss ->
  CI (mkServer sl (<[j := c']> cs) ss) (<[j := (a, qs)]> aq).
Proof.
  intros [C1 C2] Hj G S Hl. split; cbn in *; [rewrite !insert_length; auto|]. intros j' c2 Hj'. apply lookup_upd in Hj' as [[<- ->]|[Hn Hj']].
  - exists hs, a, qs. split; auto. apply list_lookup_insert. rewrite C1. eapply lookup_lt_Some; eauto.
  - rewrite list_lookup_insert_ne by auto. apply C2; auto.
Qed.
Lemma ci_sess sl sl' cs ss ss' aq : CI (mkServer sl cs ss) aq -> length ss' = length ss -> CI (mkServer sl' cs ss') aq.
Proof. intros [C1 C2] E. split; cbn in *; auto. rewrite E. auto. Qed.
(** The conn of connection [i] changes; nothing is executed. *)
Lemma caught_upd sl cs ss sl' cs' z i s s' log : caught_up (mkServer sl cs ss) z -> ss !! i = Some s -> z.2 !! i = Some log ->
  (log = answered s' \/ exists cmd j r, busy s' = Some (cmd, j) /\ log = answered s' ++ [(cmd, r)]) -> caught_up (mkServer sl' cs' (<[i := s']> ss)) z.
Proof.
  intros [C1 C2] Hi Hl Hs. split; cbn in *; [rewrite insert_length; auto|]. intros i' s2 Hi'. apply lookup_upd in Hi' as [[<- ->]|[Hn Hi']]; eauto.
Qed.

Lemma ni_step N : NI N -> nstep T (f N) (f (S N)) -> NI (S N).
Proof.
  intros (g & tr & aq & HP & L & C) H. remember (f N) as x eqn:Ex. remember (f (S N)) as y eqn:Ey.
  pose proof (p_ok _ _ _ _ _ _ HP N ltac:(lia)) as Hok. pose proof (p_cur _ _ _ _ _ _ HP) as Hcur. rewrite <- Ex in Hok, Hcur.
  destruct H as [sl cs ss i h cmd rest Hi Hsel|sl cs ss i h cmd rest c Hi Hsel Hc|sl cs ss j c c' Hj Hs|sl cs ss i h cmd j rest c r Hi Hj Ht].
  - (* SELECT *)
    assert (Hlog : (g N).2 !! i = Some h) by (apply (t_idle _ _ _ L i _ Hi eq_refl)). destruct (g N) as [m logs] eqn:Eg. cbn in Hcur, Hlog.
    assert (Hlen : length (map cdb cs) = length (mdbs m)). { rewrite map_length. destruct C as [C1 _]. cbn in C1. rewrite <- C1. apply (t_len _ _ _ L). }
    assert (Es : select (mkMgr sl (map cdb cs)) cmd = ((select m cmd).1, mkMgr (cur (select m cmd).2) (map cdb cs))).
    { unfold select. cbn. unfold zlen. rewrite Hlen. rewrite <- Hcur. repeat (case_match; auto). }
    rewrite Es in *. cbn in *.
    destruct (pi_next T f z0 N g tr ((select m cmd).2, <[i := h ++ [(cmd, (select m cmd).1)]]> logs) [(i, None)] HP) as (g' & tr' & HP' & E').
    + rewrite Eg. apply msteps_one. eapply MS_sel; eauto.
    + rewrite <- Ey. destruct Hok as [O1 O2]. cbn in *. split; cbn; [rewrite !insert_length; auto|]. intros i' s' Hi'.
      apply lookup_upd in Hi' as [[<- ->]|[Hn Hi']].
      * exists (h ++ [(cmd, (select m cmd).1)]). split; [apply list_lookup_insert; eapply lookup_lt_Some; eauto|auto].
      * rewrite list_lookup_insert_ne by auto. eauto.
    + rewrite <- Ey. reflexivity.
    + intros j' i' Hj' (s' & cmd' & H1 & H2 & H3). rewrite <- Ey, <- Ex, Eg in *. cbn in *.
      apply lookup_upd in H1 as [[<- ->]|[Hn H1]]; [discriminate|]. rewrite list_lookup_insert_ne in H3 by auto. rewrite list_lookup_insert_ne by auto.
      split; auto. exists s', cmd'. auto.
    + intros j' Hj'. constructor; [|constructor]. split; cbn; [discriminate|]. intros (s' & cmd' & H1 & H2 & H3). rewrite <- Ey in H1. cbn in H1.
      rewrite list_lookup_insert in H1 by (eapply lookup_lt_Some; eauto). injection H1 as <-. discriminate.
    + exists g', tr', aq. split; auto. rewrite E', <- Ey. split.
      * destruct L as [L1 L2 L3 L4 L5 L6]. cbn in *. constructor; cbn; rewrite ?select_dbs; auto.
        -- intros i' s' j a qs q Hs'. apply lookup_upd in Hs' as [[<- ->]|[Hn Hs']]; [|eauto]. intros Hja Hqa. cbn. destruct (L3 i _ j a qs q Hi Hja Hqa) as [Hr|[cmd' Hb]]; [auto|discriminate].
        -- intros i' s' cmd' j a qs q Hs' Hb Hja Hqa. apply lookup_upd in Hs' as [[<- ->]|[Hn Hs']]; [discriminate|]. eapply flight_same; [eapply L4; eauto|]. cbn. apply list_lookup_insert_ne; auto.
        -- intros i' s' Hs' Hb. apply lookup_upd in Hs' as [[<- ->]|[Hn Hs']]; [apply list_lookup_insert; eapply lookup_lt_Some; eauto|]. rewrite list_lookup_insert_ne by auto. auto.
        -- intros i' s' Hs'. apply lookup_upd in Hs' as [[<- ->]|[Hn Hs']]; [|eauto]. destruct (L6 i _ Hi) as [F _]. cbn in *. inversion F; subst. split; auto. discriminate.
      * eapply ci_sess; [exact C|]. rewrite insert_length; auto.
  - (* a command starts *)
    assert (Hlog : (g N).2 !! i = Some h) by (apply (t_idle _ _ _ L i _ Hi eq_refl)).
    destruct (pi_next T f z0 N g tr (g N) [] HP) as (g' & tr' & HP' & E').
    + constructor.
    + rewrite <- Ey. eapply caught_upd; eauto.
    + rewrite <- Ey. exact Hcur.
    + intros j' i' Hj' (s' & cmd' & H1 & H2 & H3). rewrite <- Ey, <- Ex in *. cbn in *.
      apply lookup_upd in H1 as [[<- ->]|[Hn H1]]; [cbn in H2; congruence|]. rewrite list_lookup_insert_ne by auto. split; auto. exists s', cmd'. auto.
    + intros; constructor.
    + assert (Hcmd : okc cmd) by (destruct (t_cmds _ _ _ L i _ Hi) as [F _]; cbn in F; inversion F; auto).
      destruct C as [C1 C2]. destruct (C2 sl c Hc) as (hs & a & qs & Haq & G & Sm & Hl). cbn in Hl.
      destruct (lookup_lt_is_Some_2 (ths c) i) as [[p b] Ht]. { rewrite <- (good_len _ _ _ _ G), <- (s_len _ _ _ _ _ Sm), Hl. eapply lookup_lt_Some; eauto. }
      destruct (get_h _ _ _ _ _ _ G Ht) as (h0 & Hh0 & W0). destruct (s_th _ _ _ _ _ Sm i h0 _ Hh0 Ht) as (q & Hq & Hts).
      assert (Hret : is_ret q). { destruct (t_th _ _ _ L i _ sl a qs q Hi Haq Hq) as [Hr|[cmd' Hb]]; [auto|discriminate]. }
      assert (Hp : exists v, p = Ret v). { destruct Hret as [v ->]. destruct h0; cbn in Hts; [exists v; congruence| |exists v; congruence]. destruct Hts as (? & ? & ? & ? & ? & _). discriminate. }
      destruct Hp as [v ->].
      assert (Hwf : Wf.wf (fun _ => True) true false Idle Idle (exec_in_db cmd)). { apply exec_wf_us; auto. destruct Hcmd as ((Hk & _) & _). congruence. }
      destruct (good_arrive _ _ _ _ _ _ _ _ G Ht Hwf) as (Hidle & -> & G').
      pose proof (sim_arrive T c hs a qs i _ (exec_in_db cmd) Sm Ht Hidle) as Sm'.
      exists g', tr', (<[sl := (a, <[i := exec_in_db cmd]> qs)]> aq). split; auto. rewrite E', <- Ey. split.
      * destruct L as [L1 L2 L3 L4 L5 L6]. cbn in *. constructor; cbn; auto.
        -- rewrite insert_length. auto.
        -- intros j' a' qs' Hj'. apply aq_upd in Hj' as [(<- & -> & ->)|[_ Hj']]; eauto.
        -- intros i' s' j' a' qs' q2 Hs' Hj' Hq2. apply lookup_upd in Hs' as [[<- ->]|[Hn Hs']].
           ++ apply aq_upd in Hj' as [(<- & -> & ->)|[Hn Hj']]; [right; exists cmd; auto|]. destruct (L3 i _ j' a' qs' q2 Hi Hj' Hq2) as [Hr|[cmd' Hb]]; [auto|discriminate].
           ++ apply aq_upd in Hj' as [(<- & -> & ->)|[_ Hj']]; [|eauto]. rewrite list_lookup_insert_ne in Hq2 by auto. eauto.
        -- intros i' s' cmd' j' a' qs' q2 Hs' Hb Hj' Hq2. apply lookup_upd in Hs' as [[<- ->]|[Hn Hs']].
           ++ cbn in Hb. injection Hb as <- <-. apply aq_upd in Hj' as [(_ & -> & ->)|[Hn _]]; [|congruence].
              rewrite list_lookup_insert in Hq2 by (eapply lookup_lt_Some; eauto). injection Hq2 as <-. left. destruct Hcmd as (K1 & K2 & K3).
              split; [exact (lin_cmd_ok T lim HT K cmd K1 K2 K3)|]. split; [|exact Hlog]. intros D0 out _ R0. exact R0.
           ++ apply aq_upd in Hj' as [(<- & -> & ->)|[_ Hj']]; [|eauto]. rewrite list_lookup_insert_ne in Hq2 by auto. eauto.
        -- intros i' s' Hs' Hb. apply lookup_upd in Hs' as [[<- ->]|[Hn Hs']]; [discriminate|]. auto.
        -- intros i' s' Hs'. apply lookup_upd in Hs' as [[<- ->]|[Hn Hs']]; [|eauto]. destruct (L6 i _ Hi) as [F _]. cbn in *. inversion F; subst. split; auto.
           intros cmd' j' [= <- <-]. auto.
      * eapply ci_sess; [eapply ci_upd; [split; [exact C1|exact C2]|exact Hc|exact G'|exact Sm'|]|]; cbn; rewrite ?insert_length; auto.
  - (* a step in a database *)
    destruct (pi_next T f z0 N g tr (g N) [] HP) as (g' & tr' & HP' & E').
    + constructor.
    + rewrite <- Ey. exact Hok.
    + rewrite <- Ey. exact Hcur.
    + intros j' i' Hj' Hp. rewrite <- Ey in *. rewrite <- Ex. cbn. split; auto.
    + intros; constructor.
    + destruct C as [C1 C2]. destruct (C2 j c Hj) as (hs & a & qs & Haq & G & Sm & Hl). cbn in Hl.
      destruct (sim_step _ _ _ _ _ _ _ G Sm Hs) as (hs' & a' & qs' & G' & S' & R).
      assert (L' : TI (f (S N)) (g' (S N)) aq). { rewrite E', <- Ey. destruct L. constructor; auto. }
      destruct (ti_asteps (S N) g' tr' aq j _ _ R HP' L' Haq) as (g2 & tr2 & HP2 & L2 & Hl2); [cbn; rewrite <- Ey; exact Hl|].
      exists g2, tr2, (<[j := (a', qs')]> aq). split; auto. split; auto. rewrite <- Ey. eapply ci_upd; eauto; [split; auto|]. rewrite <- Ey in Hl2. exact Hl2.
  - (* a reply *)
    destruct C as [C1 C2]. destruct (C2 j c Hj) as (hs & a & qs & Haq & G & Sm & Hl). cbn in Hl.
    destruct (get_h _ _ _ _ _ _ G Ht) as (h0 & Hh0 & W0 & _). cbn in W0. assert (h0 = Idle) as -> by (inversion W0; auto).
    destruct (s_th _ _ _ _ _ Sm i Idle _ Hh0 Ht) as (q & Hq & Hts). cbn in Hts. subst q.
    destruct (t_cmds _ _ _ L i _ Hi) as [_ Hc]. destruct (Hc cmd j eq_refl) as [Hcmd Hsel].
    assert (HX : exists g1 tr1, PI N g1 tr1 /\ TI (f N) (g1 N) aq /\ (g1 N).2 !! i = Some (h ++ [(cmd, r)])).
    { destruct (t_busy _ _ _ L i _ cmd j a qs (Ret r) Hi eq_refl Haq Hq) as [(H1 & H2 & H3)|(r' & H1 & H2)].
      - destruct (t_db _ _ _ L _ _ _ Haq) as (Ha & D & HD & <-).
        assert (Hrun' : runs T D (exec_in_db cmd) (Done r D)) by (apply H2; [auto|constructor]).
        destruct (run_stop _ _ _ _ Hcmd Ha Hrun') as (Ha' & now & Hnow & Hstep).
        assert (Hi' : sess (f N) !! i = Some (mkConn h (Some (cmd, j)) rest)) by (rewrite <- Ex; exact Hi).
        destruct (pi_exec T f z0 N g tr i _ cmd j D now r D HP Hi' eq_refl H3 Hsel HD Hnow Hstep) as (g' & tr' & HP' & E).
        exists g', tr'. split; auto. rewrite E. split.
        + replace aq with (<[j := (data_of D, <[i := Ret r]> qs)]> aq) by (rewrite list_insert_id; auto; rewrite list_insert_id; auto).
          rewrite Ex in L. eapply (ti_exec _ _ _ _ _ _ _ _ _ _ _ _ _ L Haq Hq Hi' eq_refl); auto; [eapply lookup_lt_Some; eauto|constructor].
        + cbn. apply list_lookup_insert. eapply lookup_lt_Some; eauto.
      - inversion H1; subst. exists g, tr. split; auto. split; [congruence|exact H2]. }
    destruct HX as (g1 & tr1 & HP1 & L1 & Hlog).
    pose proof (p_ok _ _ _ _ _ _ HP1 N ltac:(lia)) as Hok1. pose proof (p_cur _ _ _ _ _ _ HP1) as Hcur1. rewrite <- Ex in Hok1, Hcur1, L1.
    destruct (pi_next T f z0 N g1 tr1 (g1 N) [] HP1) as (g' & tr' & HP' & E').
    + constructor.
    + rewrite <- Ey. eapply caught_upd; eauto.
    + rewrite <- Ey. exact Hcur1.
    + intros j' i' Hj' (s' & cmd' & H1 & H2 & H3). rewrite <- Ey, <- Ex in *. cbn in *.
      apply lookup_upd in H1 as [[<- ->]|[Hn H1]]; [cbn in H2; discriminate|]. rewrite list_lookup_insert_ne by auto. split; auto. exists s', cmd'. auto.
    + intros; constructor.
    + exists g', tr', aq. split; auto. rewrite E', <- Ey. split; [|eapply ci_sess; [split; [exact C1|exact C2]|rewrite insert_length; auto]].
      destruct L1 as [L1 L2 L3 L4 L5 L6]. cbn in *. constructor; cbn; auto.
      * intros i' s' j' a' qs' q2 Hs' Hj' Hq2. apply lookup_upd in Hs' as [[<- ->]|[Hn Hs']]; [|eauto].
        destruct (L3 i _ j' a' qs' q2 Hi Hj' Hq2) as [Hr|[cmd' Hb]]; [auto|]. cbn in Hb. injection Hb as <- <-. left. assert (qs' = qs) as -> by congruence. exists r. congruence.
      * intros i' s' cmd' j' a' qs' q2 Hs' Hb Hj' Hq2. apply lookup_upd in Hs' as [[<- ->]|[Hn Hs']]; [discriminate|]. eauto.
      * intros i' s' Hs' Hb. apply lookup_upd in Hs' as [[<- ->]|[Hn Hs']]; [exact Hlog|]. auto.
      * intros i' s' Hs'. apply lookup_upd in Hs' as [[<- ->]|[Hn Hs']]; [|eauto]. destruct (L6 i _ Hi) as [F _]. cbn in *. split; auto. discriminate.
Qed.
End Run.
End WithParams.

Section Final.
Context {P : Setup}.
Lemma map_lookup_some {X Y} (h : X -> Y) (l : list X) (i : nat) y : map h l !! i = Some y -> exists x, l !! i = Some x /\ y = h x.
Proof. intros H. apply list_lookup_fmap_inv in H as (x & -> & Hx). eauto. Qed.
Theorem server_linearizable (T : Z -> Prop) lim sl ds css (f : nat -> server) N : (exists t, T t) -> (forall t, T t -> t <= lim) ->
  each one_step css -> each (far_deadlines T lim) css -> (forall d key t, d ∈ ds -> names css key -> exps d !! key = Some t -> lim <= t) ->
  f 0%nat = serve sl ds css -> (forall n, (n < N)%nat -> nstep T (f n) (f (S n))) ->
  exists g : nat -> alone, g 0%nat = (mkMgr sl ds, map (fun _ => []) css) /\ (forall n, (n < N)%nat -> rtc (mturn T) (g n) (g (S n))) /\
    (forall n, (n <= N)%nat -> caught_up (f n) (g n)) /\ same_contents (f N) (g N).
Proof.
  intros [t0 Ht0] HT H1 H2 Hd H0 Hf. set (z0 := (mkMgr sl ds, map (fun _ => []) css) : alone).
  assert (Hni : forall n, (n <= N)%nat -> NI T (names css) lim f z0 n).
  { induction n as [|n IH]; intros Hn; [|eapply ni_step; [exact Ht0|exact HT|apply IH; lia|apply Hf; lia]].
    set (aq := map (fun d => (data_of d, map (fun _ : list command => Ret rnil) css)) ds).
    exists (fun _ => z0), (fun _ => []), aq. split; [|split].
    - constructor.
      + reflexivity.
      + intros; lia.
      + intros n' Hn'. assert (n' = 0%nat) as -> by lia. rewrite H0. split; cbn; [rewrite !map_length; auto|]. intros i s Hi.
        apply map_lookup_some in Hi as (cmds & Hi & ->). exists []. split; [|auto]. rewrite list_lookup_fmap, Hi. reflexivity.
      + rewrite H0. reflexivity.
      + intros j (i & s & cmd & Hi & Hb & _). rewrite H0 in Hi. cbn in Hi. apply map_lookup_some in Hi as (cmds & Hi & ->). discriminate.
    - rewrite H0. constructor; cbn.
      + unfold aq. rewrite map_length. auto.
      + intros j a qs Hj. apply map_lookup_some in Hj as (d & Hj & E). injection E as -> ->. split; [|eauto].
        intros key t Hk E. apply (Hd d key t); auto. eapply elem_of_list_lookup_2; eauto.
      + intros i s j a qs q _ Hj Hq. left. apply map_lookup_some in Hj as (d & Hj & E). injection E as -> ->.
        apply map_lookup_some in Hq as (cmds & _ & ->). eexists; reflexivity.
      + intros i s cmd j a qs q Hi Hb. apply map_lookup_some in Hi as (cmds & Hi & ->). discriminate.
      + intros i s Hi _. apply map_lookup_some in Hi as (cmds & Hi & ->). rewrite list_lookup_fmap, Hi. reflexivity.
      + intros i s Hi. apply map_lookup_some in Hi as (cmds & Hi & ->). split; [|discriminate]. cbn. apply elem_of_list_lookup_2 in Hi.
        apply Forall_forall. intros cmd Hc. apply elem_of_list_In in Hc. split; [eapply H1; eauto|]. split; [eapply H2; eauto|]. intros k Hk. exists cmds, cmd. auto.
    - rewrite H0. split; cbn; [unfold aq; rewrite !map_length; auto|]. intros j c Hj. apply map_lookup_some in Hj as (d & Hj & ->).
      exists (map (fun _ => Idle) (map (fun _ : list command => Ret rnil : prog rdata) css)), (data_of d), (map (fun _ : list command => Ret rnil) css).
      split; [unfold aq; rewrite list_lookup_fmap, Hj; reflexivity|]. split; [|split; [apply sim_start|rewrite !map_length; auto]].
      apply good_start. apply Forall_forall. intros p Hp. apply in_map_iff in Hp as (? & <- & _). constructor. }
  destruct (Hni N ltac:(lia)) as (g & tr & aq & HP & L & C1 & C2). exists g. split; [apply (p_0 _ _ _ _ _ _ HP)|].
  split; [intros n Hn; eapply msteps_rtc; apply (p_path _ _ _ _ _ _ HP); auto|]. split; [apply (p_ok _ _ _ _ _ _ HP)|].
  split; [symmetry; apply (p_cur _ _ _ _ _ _ HP)|]. split; [rewrite <- C1; apply (t_len _ _ _ _ _ _ L)|].
  intros j c d Hc Hj key Hw. destruct (C2 j c Hc) as (hs & a & qs & Haq & G & Sm & _).
  destruct (t_db _ _ _ _ _ _ L j a qs Haq) as (_ & D & HD & <-). assert (D = d) as -> by congruence.
  destruct (sim_corresponds _ _ _ _ _ _ G Sm) as (_ & _ & Hk). exact (Hk key Hw).
Qed.
(** Connections get their replies in the order of their commands. *)
Lemma nstep_order T x y i : nstep T x y -> option_map all_commands (sess y !! i) = option_map all_commands (sess x !! i).
Proof.
  intros H. destruct H as [sl cs ss i' h cmd rest Hi Hsel|sl cs ss i' h cmd rest c Hi Hsel Hc|sl cs ss j c c' Hj Hs|sl cs ss i' h cmd j rest c r Hi Hj Ht]; cbn; auto;
    (destruct (decide (i' = i)) as [->|Hn]; [rewrite list_lookup_insert by (eapply lookup_lt_Some; eauto); rewrite Hi; cbn; f_equal; unfold all_commands; cbn; rewrite ?map_app; cbn; rewrite <- ?app_assoc; reflexivity
      |rewrite list_lookup_insert_ne by auto; reflexivity]).
Qed.
Theorem server_order T sl ds css x i s : rtc (nstep T) (serve sl ds css) x -> sess x !! i = Some s -> css !! i = Some (all_commands s).
Proof.
  intros R Hs. assert (E : option_map all_commands (sess x !! i) = option_map all_commands (sess (serve sl ds css) !! i)).
  { clear Hs. induction R as [x|x y z H _ IH]; auto. rewrite IH. eapply nstep_order; eauto. }
  rewrite Hs in E. cbn in E. rewrite list_lookup_fmap in E. destruct (css !! i) as [cmds|]; cbn in E; [|discriminate]. injection E as E. rewrite E. reflexivity.
Qed.

(** ** Progress *)
(** The threads of connections in a reachable state. *)
Record GI (x : server) : Prop := mkGI {
  gi_good : forall j c, cores x !! j = Some c -> (exists hs, good true true c hs) /\ length (ths c) = length (sess x);
  gi_ret : forall j c i s t, cores x !! j = Some c -> sess x !! i = Some s -> ths c !! i = Some t -> (exists cmd, busy s = Some (cmd, j)) \/ returned t;
  gi_busy : forall i s cmd j, sess x !! i = Some s -> busy s = Some (cmd, j) -> (j < length (cores x))%nat;
  gi_sel : (sel x < length (cores x))%nat }.
Lemma cstep_ths {A} T (c c' : conf A) : cstep T c c' -> exists i t t', ths c !! i = Some t /\ ths c' = <[i := t']> (ths c) /\ ~ returned t.
Proof.
  intros H. destruct H as [d L ts i p d' p' Hi Hp|d L ts i pos k n Hi HL|d L ts i pos k n Hi HL|d L ts i pos k Hi HL|d L ts i pos k n b Hi HL|d L ts i pos k n b Hi HL];
    (eexists i, _, _; split; [exact Hi|split; [reflexivity|]]); intros [x E]; cbn in E; try discriminate. subst. inversion Hp.
Qed.
Lemma select_in m cmd : (cur m < length (mdbs m))%nat -> (cur (select m cmd).2 < length (mdbs m))%nat.
Proof.
  unfold select. destruct cmd as [|? [|a [|]]]; cbn; auto. destruct (atoi (str a)) as [i|]; cbn; auto.
  destruct ((zlen (mdbs m) <=? i) || (i <? 0)) eqn:E; cbn; auto. apply orb_false_iff in E as [E1 E2]. unfold zlen in *. lia.
Qed.
Lemma gi_step T x y : GI x -> nstep T x y -> GI y.
Proof.
  intros [G1 G2 G3 G4] H. destruct H as [sl cs ss i h cmd rest Hi Hsel|sl cs ss i h cmd rest c Hi Hsel Hc|sl cs ss j c c' Hj Hs|sl cs ss i h cmd j rest c r Hi Hj Ht]; cbn in *.
  - constructor; cbn.
    + rewrite insert_length. auto.
    + intros j' c' i' s' t Hj' Hs' Ht. apply lookup_upd in Hs' as [[<- ->]|[Hn Hs']]; [|eauto]. destruct (G2 j' c' i _ t Hj' Hi Ht) as [(cmd' & Hb)|Hr]; [discriminate|auto].
    + intros i' s' cmd' j' Hs' Hb. apply lookup_upd in Hs' as [[<- ->]|[Hn Hs']]; [discriminate|eauto].
    + rewrite <- (map_length cdb cs). apply (select_in (mkMgr sl (map cdb cs)) cmd). cbn. rewrite map_length. auto.
  - destruct (G1 sl c Hc) as [[hs G] Hl]. destruct (lookup_lt_is_Some_2 (ths c) i) as [[p b] Ht]; [rewrite Hl; eapply lookup_lt_Some; eauto|].
    destruct (G2 sl c i _ _ Hc Hi Ht) as [(cmd' & Hb)|[v E]]; [discriminate|]. cbn in E. subst p.
    destruct (good_arrive _ _ _ _ _ _ _ (exec_in_db cmd) G Ht) as (_ & _ & G'); [apply exec_wf_us; auto|].
    constructor; cbn; rewrite ?insert_length; auto.
    + intros j' c' Hj'. apply lookup_upd in Hj' as [[<- ->]|[Hn Hj']]; [|rewrite ?insert_length; apply (G1 _ _ Hj')]. split; [eauto|]. cbn. rewrite !insert_length. auto.
    + intros j' c' i' s' t Hj' Hs' Ht'. apply lookup_upd in Hs' as [[<- ->]|[Hn Hs']].
      * apply lookup_upd in Hj' as [[<- ->]|[Hn Hj']]; [left; eexists; reflexivity|]. destruct (G2 j' c' i _ t Hj' Hi Ht') as [(cmd' & Hb)|Hr]; [discriminate|auto].
      * apply lookup_upd in Hj' as [[<- ->]|[Hn' Hj']]; [|eauto]. cbn in Ht'. rewrite list_lookup_insert_ne in Ht' by auto. eauto.
    + intros i' s' cmd' j' Hs' Hb. apply lookup_upd in Hs' as [[<- ->]|[Hn Hs']]; [|eauto]. cbn in Hb. injection Hb as <- <-. auto.
  - destruct (G1 j c Hj) as [[hs G] Hl]. destruct (good_step _ _ _ _ _ _ G Hs) as [hs' G']. destruct (cstep_ths _ _ _ Hs) as (i & t & t' & Hi & E & Hr).
    constructor; cbn; rewrite ?insert_length; auto.
    + intros j' c2 Hj'. apply lookup_upd in Hj' as [[<- ->]|[Hn Hj']]; [|rewrite ?insert_length; apply (G1 _ _ Hj')]. split; [eauto|]. rewrite E, !insert_length. auto.
    + intros j' c2 i' s' t2 Hj' Hs' Ht'. apply lookup_upd in Hj' as [[<- ->]|[Hn' Hj']]; [|eauto]. rewrite E in Ht'.
      apply lookup_upd in Ht' as [[<- ->]|[Hn Ht']]; [|eauto]. destruct (G2 j c i s' t Hj Hs' Hi) as [Hb|Hb]; [auto|tauto].
  - constructor; cbn; rewrite ?insert_length; auto.
    + intros j' c' i' s' t Hj' Hs' Ht'. apply lookup_upd in Hs' as [[<- ->]|[Hn Hs']]; [|eauto]. destruct (G2 j' c' i _ t Hj' Hi Ht') as [(cmd' & Hb)|Hr]; [|auto].
      cbn in Hb. injection Hb as <- <-. right. exists r. assert (c' = c) as -> by congruence. rewrite Ht in Ht'. injection Ht' as <-. reflexivity.
    + intros i' s' cmd' j' Hs' Hb. apply lookup_upd in Hs' as [[<- ->]|[Hn Hs']]; [discriminate|eauto].
Qed.
Lemma gi_serve sl ds css : (sl < length ds)%nat -> GI (serve sl ds css).
Proof.
  intros Hsl. constructor; cbn.
  - intros j c Hj. apply map_lookup_some in Hj as (d & Hj & ->). split; [|cbn; rewrite !map_length; auto]. eexists. apply good_start.
    apply Forall_forall. intros p Hp. apply in_map_iff in Hp as (? & <- & _). constructor.
  - intros j c i s t Hj Hs Ht. right. apply map_lookup_some in Hj as (d & Hj & ->). cbn in Ht. apply map_lookup_some in Ht as (p & Hp & ->).
    apply map_lookup_some in Hp as (? & _ & ->). eexists; reflexivity.
  - intros i s cmd j Hi Hb. apply map_lookup_some in Hi as (cmds & Hi & ->). discriminate.
  - rewrite map_length. auto.
Qed.
Lemma gi_rtc T x y : rtc (nstep T) x y -> GI x -> GI y.
Proof. induction 1; auto. intros. apply IHrtc. eapply gi_step; eauto. Qed.
Lemma cstep_lengths {A} T (c c' : conf A) : cstep T c c' -> length (ths c') = length (ths c).
Proof. intros H. destruct (cstep_ths _ _ _ H) as (i & t & t' & _ & E & _). rewrite E. apply insert_length. Qed.
Theorem server_progress (T : Z -> Prop) now sl ds css x : T now -> (sl < length ds)%nat -> rtc (nstep T) (serve sl ds css) x -> (forall y, ~ nadvance T x y) ->
  finished x \/ exists j c t, cores x !! j = Some c /\ t ∈ ths c /\ (tcode t = Crash \/ tcode t = Hang).
Proof.
  intros Hnow Hsl R Hn. pose proof (gi_rtc T _ _ R (gi_serve sl ds css Hsl)) as [G1 G2 G3 G4]. clear R.
  destruct x as [sl' cs ss]. cbn in *.
  destruct (find_list (fun s : conn => ~ (busy s = None /\ todo s = []))) with (xs := ss) as [(i & s & Hi & Hu)|Hall].
  - intros s. destruct (busy s); [left; intros [? ?]; discriminate|]. destruct (todo s); [right; tauto|left; intros [? ?]; discriminate].
  - right. destruct s as [h b rest]. cbn in Hu. destruct b as [[cmd j]|].
    + pose proof (G3 i _ cmd j Hi eq_refl) as Hj. apply lookup_lt_is_Some_2 in Hj as [c Hc]. destruct (G1 j c Hc) as [[hs G] Hl].
      destruct (lookup_lt_is_Some_2 (ths c) i) as [t Ht]; [rewrite Hl; eapply lookup_lt_Some; eauto|].
      destruct (returned_dec t) as [[r Er]|Hr].
      * exfalso. apply (Hn (mkServer sl' cs (<[i := mkConn (h ++ [(cmd, r)]) None rest]> ss))).
        destruct (get_h _ _ _ _ _ _ G Ht) as (h0 & _ & _ & _ & Ha). destruct t as [p b]. cbn in *. subst p.
        assert (b = false) as -> by (destruct b; auto; destruct (Ha eq_refl) as (? & ? & ?); discriminate).
        split; [eapply N_reply; eauto|]. left. cbn. intros E. apply (f_equal (fun l => l !! i)) in E.
        rewrite list_lookup_insert in E by (eapply lookup_lt_Some; eauto). rewrite Hi in E. discriminate.
      * destruct (stuck true true T now c hs G Hnow) as [Hs|(i' & t' & Hi' & Ht')].
        -- intros c' [Hs Hne]. apply (Hn (mkServer sl' (<[j := c']> cs) ss)). split; [eapply N_run; eauto|]. right. cbn. intros E.
           apply (f_equal (fun l => l !! j)) in E. rewrite !list_lookup_fmap, list_lookup_insert in E by (eapply lookup_lt_Some; eauto). rewrite Hc in E. cbn in E. congruence.
        -- destruct Hr. eapply Hs; eauto.
        -- exists j, c, t'. split; auto. split; auto. eapply elem_of_list_lookup_2; eauto.
    + exfalso. destruct rest as [|cmd rest]; [tauto|]. destruct (is_select cmd) eqn:Es.
      * eapply Hn. split; [eapply N_select; eauto|]. left. cbn. intros E. apply (f_equal (fun l => l !! i)) in E.
        rewrite list_lookup_insert in E by (eapply lookup_lt_Some; eauto). rewrite Hi in E. injection E as E. apply (f_equal length) in E. rewrite app_length in E. cbn in E. lia.
      * apply lookup_lt_is_Some_2 in G4 as [c Hc]. eapply Hn. split; [eapply N_start; eauto|]. left. cbn. intros E. apply (f_equal (fun l => l !! i)) in E.
        rewrite list_lookup_insert in E by (eapply lookup_lt_Some; eauto). rewrite Hi in E. discriminate.
  - left. intros i s Hi. cbn in Hi. specialize (Hall i s Hi). destruct (busy s), (todo s); auto; exfalso; apply Hall; intros [? ?]; discriminate.
Qed.
(** ** Executions are finite *)
Definition lupd {X} (R : X -> X -> Prop) (l' l : list X) : Prop := exists i x y, l !! i = Some x /\ R y x /\ l' = <[i := y]> l.
Lemma lupd_wf {X} (R : X -> X -> Prop) (W : forall x, Acc R x) l : Acc (lupd R) l.
Proof.
  induction l as [|x l IH]; [constructor; intros l' (i & x & y & H & _); discriminate|].
  revert l IH. induction (W x) as [x _ IHx]. intros l Hl. induction Hl as [l Hl IHl].
  constructor. intros l' ([|i] & z & y & H & Hlt & ->); simpl in *.
  - injection H as ->. apply IHx; auto. constructor; auto.
  - apply IHl. exists i, z, y. auto.
Qed.
Definition weight (s : conn) : nat := (2 * length (todo s) + match busy s with Some _ => 1 | None => 0 end)%nat.
Lemma nadvance_less T x y : nadvance T x y -> (total weight (sess y) < total weight (sess x))%nat \/
  (total weight (sess y) = total weight (sess x) /\ lupd ult (map ths (cores y)) (map ths (cores x))).
Proof.
  intros [H Hne]. destruct H as [sl cs ss i h cmd rest Hi Hsel|sl cs ss i h cmd rest c Hi Hsel Hc|sl cs ss j c c' Hj Hs|sl cs ss i h cmd j rest c r Hi Hj Ht]; cbn in *.
  - left. match goal with |- context [<[i := ?s]> ss] => pose proof (total_insert weight ss i _ s Hi) as E end. unfold weight in *. cbn in *. lia.
  - left. match goal with |- context [<[i := ?s]> ss] => pose proof (total_insert weight ss i _ s Hi) as E end. unfold weight in *. cbn in *. lia.
  - right. split; auto. destruct Hne as [Hne|Hne]; [congruence|]. exists j, (ths c), (ths c'). split; [rewrite list_lookup_fmap, Hj; auto|].
    split; [|rewrite list_fmap_insert; auto]. apply (advance_ult T). split; auto. intros E. apply Hne. rewrite list_fmap_insert, E. apply list_insert_id. rewrite list_lookup_fmap, Hj. auto.
  - left. match goal with |- context [<[i := ?s]> ss] => pose proof (total_insert weight ss i _ s Hi) as E end. unfold weight in *. cbn in *. lia.
Qed.
Lemma nadvance_wf T x : Acc (fun y x => nadvance T x y) x.
Proof.
  remember (total weight (sess x)) as w eqn:E. revert x E. induction (lt_wf w) as [w _ IHw]. intros x E.
  remember (map ths (cores x)) as l eqn:El. revert x E El. induction (lupd_wf ult ult_wf l) as [l _ IHl]. intros x E El. constructor. intros y H.
  destruct (nadvance_less _ _ _ H) as [Hl|[He Hl]]; [eapply IHw; [|reflexivity]; lia|]. subst l. eapply IHl; [exact Hl|congruence|reflexivity].
Qed.
Theorem server_finite T (f : nat -> server) : ~ (forall n, nadvance T (f n) (f (S n))).
Proof.
  intros H. assert (forall x, Acc (fun y x => nadvance T x y) x -> forall n, f n = x -> False) as Hf.
  { intros x Ha. induction Ha as [x _ IH]. intros n <-. apply (IH _ (H n) (S n)). reflexivity. }
  eapply Hf; [apply nadvance_wf|reflexivity]. Unshelve. exact 0%nat.
Qed.
End Final.
