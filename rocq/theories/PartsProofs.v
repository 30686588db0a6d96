(** Overlapping commands, DEL, EXISTS and MGET by pieces: the simulation. *)
From Verif Require Export SpecParts WholeProofs LinSplit NetMain.
Notation sim := SerialProofs.sim.

Section WithParams.
Context {P : Setup} (T : Z -> Prop) (K : bytes -> Prop) (t0 lim : Z).
Hypothesis HT0 : T t0.
Hypothesis HT : forall t, T t -> t <= lim.
Notation LI := (LI T K lim).
Notation alive := (alive K lim).

(** ** The machine of SpecParts.v on the databases of the model *)
Definition mcount : Type := manager * list account.
Inductive jstep : mcount -> mcount -> Prop :=
| J_select m cl i l cmd : cl !! i = Some (mkAcc l None) -> is_select cmd = true ->
    jstep (m, cl) ((select m cmd).2, <[i := mkAcc (l ++ [(cmd, (select m cmd).1)]) None]> cl)
| J_begin m cl i l cmd : cl !! i = Some (mkAcc l None) -> is_select cmd = false ->
    jstep (m, cl) (m, <[i := mkAcc l (Some (mkTask cmd (cur m) [] (pieces cmd)))]> cl)
| J_part m cl i l cmd j rs p rest now D r D' : cl !! i = Some (mkAcc l (Some (mkTask cmd j rs (p :: rest)))) -> T now -> mdbs m !! j = Some D -> step now D p (Done r D') ->
    jstep (m, cl) (mkMgr (cur m) (<[j := D']> (mdbs m)), <[i := mkAcc l (Some (mkTask cmd j (rs ++ [r]) rest))]> cl)
| J_end m cl i l cmd j rs r : cl !! i = Some (mkAcc l (Some (mkTask cmd j rs []))) -> joins rs r ->
    jstep (m, cl) (m, <[i := mkAcc (l ++ [(cmd, r)]) None]> cl).

(** ** Invariant *)
Definition okl (cmd : command) : Prop := locked cmd /\ far_deadlines T lim cmd /\ (forall k, k ∈ key_args cmd -> K k).
Definition okp (cmd : command) : Prop := one_step cmd /\ far_deadlines T lim cmd /\ (forall k, k ∈ key_args cmd -> K k).
Lemma okl_pieces cmd : okl cmd -> Forall okp (pieces cmd).
Proof.
  intros (H1 & H2 & H3). apply Forall_forall. intros p Hp. apply elem_of_list_In in Hp. split; [eapply piece_one_step; eauto|]. split; [eapply piece_far; eauto|].
  intros k Hk. apply H3. eapply piece_keys; eauto.
Qed.
(** The results of connection [i]'s goroutine on database [j], as a whole and by pieces. *)
Definition same_reply (ss : list conn) (j i : nat) (r : rdata) (ps : list rdata) : Prop :=
  forall s cmd, ss !! i = Some s -> busy s = Some (cmd, j) -> joins ps r.
(** What the account says about database [j]. *)
Definition slot (j : nat) (a : account) (x : list rdata * list command) : Prop :=
  match current a with
  | Some t => if decide (place t = j) then x = (parts_done t, parts_left t) else x.2 = []
  | None => x.2 = []
  end.
Definition acct (s : conn) (a : account) : Prop :=
  paid a = answered s /\ match busy s with None => current a = None | Some (cmd, j) => exists rs ps, current a = Some (mkTask cmd j rs ps) end.
Record core_ok (ss : list conn) (accs : list account) (j : nat) (c : conf rdata) (D : db) : Prop := mkCore {
  k_all : exists (c' : conf (list rdata)) hs a qs cl, clike (same_reply ss j) c c' /\ good true false c' hs /\ sim T c' hs a qs /\ LI (a, qs) (D, cl) /\
    length cl = length accs /\ Forall2 (slot j) accs cl /\ Forall (fun x => Forall okp x.2) cl }.
Record JI (x : server) (z : mcount) : Prop := mkJI {
  j_sel : cur z.1 = sel x;
  j_len : length (mdbs z.1) = length (cores x);
  j_acc : Forall2 acct (sess x) z.2;
  j_todo : forall i s, sess x !! i = Some s -> Forall okl (todo s) /\ forall cmd j, busy s = Some (cmd, j) -> okl cmd;
  j_core : forall j c, cores x !! j = Some c -> exists D, mdbs z.1 !! j = Some D /\ core_ok (sess x) z.2 j c D }.

(** Turns on one database are steps of the machine. *)
Lemma turns_jsteps j : forall z z', rtc (turn T) z z' -> forall m accs, mdbs m !! j = Some z.1 -> Forall2 (slot j) accs z.2 ->
  exists accs', rtc jstep (m, accs) (mkMgr (cur m) (<[j := z'.1]> (mdbs m)), accs') /\ Forall2 (slot j) accs' z'.2 /\
    (forall j', j' <> j -> forall cl, Forall2 (slot j') accs cl -> Forall2 (slot j') accs' cl) /\
    (forall ss, Forall2 acct ss accs -> Forall2 acct ss accs').
Proof.
  induction 1 as [z|z z1 z' Ht _ IH]; intros m accs Hm HS.
  - exists accs. rewrite list_insert_id by auto. destruct m as [cu ds]. cbn. split; [apply rtc_refl|auto].
  - destruct Ht as [d cl i acc cmd rest now r d' Hi Hnow Hst]. cbn in Hm, HS.
    destruct (Forall2_lookup_r _ _ _ _ _ HS Hi) as ([l cu] & Ha & Hs). unfold slot in Hs. cbn in Hs.
    destruct cu as [[cm pl rs ps]|]; [|discriminate]. cbn in Hs. destruct (decide (pl = j)) as [->|]; [|discriminate]. injection Hs as <- <-.
    set (m1 := mkMgr (cur m) (<[j := d']> (mdbs m))). set (accs1 := <[i := mkAcc l (Some (mkTask cm j (acc ++ [r]) rest))]> accs).
    assert (Hj : (j < length (mdbs m))%nat) by (eapply lookup_lt_Some; eauto).
    destruct (IH m1 accs1) as (accs' & R & S1 & S2 & S3).
    + cbn. apply list_lookup_insert. auto.
    + apply Forall2_insert; auto. unfold slot. cbn. rewrite decide_True by auto. reflexivity.
    + exists accs'. split; [eapply rtc_l; [|]|split; [auto|split]].
      * eapply J_part; eauto.
      * fold m1 accs1. replace (<[j := z'.1]> (mdbs m)) with (<[j := z'.1]> (mdbs m1)) by (cbn; apply list_insert_insert). exact R.
      * intros j' Hj' cl' Hc. apply S2; auto. destruct (Forall2_lookup_l _ _ _ _ _ Hc Ha) as (x & Hx & Hsx).
        rewrite <- (list_insert_id cl' i x Hx). apply Forall2_insert; auto. unfold slot in *. cbn in *. destruct (decide (j = j')); [congruence|auto].
      * intros ss Hss. apply S3. destruct (Forall2_lookup_r _ _ _ _ _ Hss Ha) as (s & Hs & Hac).
        rewrite <- (list_insert_id ss i s Hs). apply Forall2_insert; auto. destruct Hac as [A1 A2]. split; [exact A1|]. cbn in *.
        destruct (busy s) as [[c2 j2]|]; [|discriminate]. destruct A2 as (rs & ps & E). injection E as -> -> _ _. eauto.
Qed.

Lemma turn_okp z z' : turn T z z' -> Forall (fun x => Forall okp x.2) z.2 -> Forall (fun x => Forall okp x.2) z'.2.
Proof.
  intros [d cl i acc cmd rest now r d' Hi Hnow Hst] HF. cbn in *. apply Forall_insert; auto. cbn. eapply Forall_lookup_1 in HF; [|exact Hi]. cbn in HF. inversion HF; auto.
Qed.
Lemma turns_okp z z' : rtc (turn T) z z' -> Forall (fun x => Forall okp x.2) z.2 -> Forall (fun x => Forall okp x.2) z'.2.
Proof. induction 1; auto. intros. apply IHrtc. eapply turn_okp; eauto. Qed.
Lemma turns0 z z' : rtc (turn0 T) z z' -> alive (data_of z.1) -> Forall (fun x => Forall okp x.2) z.2 -> rtc (turn T) z z'.
Proof.
  intros R Ha HF. apply (turn0_turn T K lim); [exists t0; exact HT0|exact HT|exact R|exact Ha|]. intros i acc tds Hi. eapply Forall_lookup_1 in HF; [|exact Hi]. exact HF.
Qed.
Lemma clike_mono {A C} (R R' : nat -> A -> C -> Prop) c c' : (forall i a b, R i a b -> R' i a b) -> clike R c c' -> clike R' c c'.
Proof.
  intros H (E1 & E2 & E3 & E4). do 3 (split; [auto|]). intros i t u Ht Hu. destruct (E4 i t u Ht Hu) as [A1 A2]. split; [exact A1|]. eapply like_mono; [|exact A2]. intros a b. apply H.
Qed.
Lemma same_reply_idle ss j i s' i' r ps : busy s' = None -> same_reply ss j i' r ps -> same_reply (<[i := s']> ss) j i' r ps.
Proof. intros Hb H s cmd Hs Hbs. apply lookup_upd in Hs as [[_ ->]|[_ Hs]]; [congruence|]. eapply H; eauto. Qed.
Lemma core_idle ss accs j c D i s' : busy s' = None -> core_ok ss accs j c D -> core_ok (<[i := s']> ss) accs j c D.
Proof.
  intros Hb [(c' & hs & a & qs & cl & H1 & H2)]. constructor. exists c', hs, a, qs, cl. split; auto. eapply clike_mono; [|exact H1]. intros i' r ps Hr. apply same_reply_idle; auto.
Qed.
(** The account of connection [i] changes from and to one without pieces to come on database [j]. *)
Lemma core_acc ss accs j c D i a a' : accs !! i = Some a -> (forall x, slot j a x -> slot j a' x) -> core_ok ss accs j c D -> core_ok ss (<[i := a']> accs) j c D.
Proof.
  intros Hi Ha [(c' & hs & ab & qs & cl & H1 & H2 & H3 & H4 & H5 & H6 & H7)]. constructor. exists c', hs, ab, qs, cl. do 4 (split; auto). split; [rewrite insert_length; auto|]. split; auto.
  destruct (Forall2_lookup_l _ _ _ _ _ H6 Hi) as (x & Hx & Hs). rewrite <- (list_insert_id cl i x Hx). apply Forall2_insert; auto.
Qed.
Lemma ji_step x y z : GI x -> JI x z -> nstep T x y -> exists z', rtc jstep z z' /\ JI y z'.
Proof.
  intros GX L H. destruct z as [m accs].
  destruct H as [sl cs ss i h cmd rest Hi Hsel|sl cs ss i h cmd rest c Hi Hsel Hc|sl cs ss j c c1 Hj Hs|sl cs ss i h cmd j rest c r Hi Hj Ht].
  - (* SELECT *)
    destruct L as [L1 L2 L3 L4 L5]. cbn in L1, L2, L3, L4, L5.
    destruct (Forall2_lookup_l _ _ _ _ _ L3 Hi) as ([l cu] & Ha & Hac & Hcu). cbn in Hac, Hcu. subst l cu.
    assert (Es : select (mkMgr sl (map cdb cs)) cmd = ((select m cmd).1, mkMgr (cur (select m cmd).2) (map cdb cs))).
    { unfold select. cbn. unfold zlen. rewrite map_length, <- L2, <- L1. repeat (case_match; auto). }
    rewrite Es. cbn [fst snd cur].
    eexists. split; [apply rtc_once; eapply J_select; eauto|]. constructor; cbn; rewrite ?select_dbs; auto.
    + apply Forall2_insert; auto. split; cbn; auto.
    + intros i' s' Hs'. apply lookup_upd in Hs' as [[<- ->]|[Hn Hs']]; [|eauto]. destruct (L4 i _ Hi) as [F _]. cbn in *. inversion F; subst. split; auto. discriminate.
    + intros j c Hj. destruct (L5 j c Hj) as (D & HD & Hk). exists D. split; auto. apply core_idle; auto. eapply core_acc; eauto.
  - (* a command starts *)
    destruct L as [L1 L2 L3 L4 L5]. cbn in L1, L2, L3, L4, L5.
    destruct (Forall2_lookup_l _ _ _ _ _ L3 Hi) as ([l cu] & Ha & Hac & Hcu). cbn in Hac, Hcu. subst l cu.
    destruct (L4 i _ Hi) as [F _]. cbn in F. inversion F as [|? ? Hok F']; subst.
    eexists. split; [apply rtc_once; eapply J_begin; eauto|]. constructor; cbn; auto.
    + rewrite insert_length. auto.
    + apply Forall2_insert; auto. split; cbn; eauto.
    + intros i' s' Hs'. apply lookup_upd in Hs' as [[<- ->]|[Hn Hs']]; [|eauto]. cbn. split; auto. intros cmd' j [= <- _]. exact Hok.
    + intros j c2 Hc2. apply lookup_upd in Hc2 as [[<- ->]|[Hne Hc2]].
      * destruct (L5 (cur m) c Hc) as (D & HD & [(c' & hs & a & qs & cl & H1 & H2 & H3 & H4 & H5 & H6 & H7)]). exists D. split; auto.
        destruct (gi_good _ GX _ _ Hc) as [_ Hlen]. cbn in Hlen. destruct (lookup_lt_is_Some_2 (ths c) i) as [t Ht]; [rewrite Hlen; eapply lookup_lt_Some; eauto|].
        destruct (gi_ret _ GX (cur m) c i _ t Hc Hi Ht) as [(cmd' & Hb)|[v Hv]]; [discriminate|].
        destruct (clike_at _ _ _ _ _ H1 Ht) as ([q b] & Hu & Hann & Hlk). cbn in Hann, Hlk. rewrite Hv in Hlk. inversion Hlk; subst.
        assert (Hwf : Wf.wf (fun _ => True) true false Idle Idle (client_from [] (pieces cmd))).
        { apply wf_client_from. intros p Hp. split; auto. destruct Hok as (Hlo & _). destruct (piece_one_step _ _ Hlo Hp) as (Hk & _). congruence. }
        destruct (good_arrive _ _ _ _ _ _ _ _ H2 Hu Hwf) as (Hidle & Hb & G').
        pose proof (sim_arrive T c' hs a qs i _ (client_from [] (pieces cmd)) H3 Hu Hidle) as Sm'.
        constructor. eexists _, hs, a, _, (<[i := ([], pieces cmd)]> cl). split; [|split; [exact G'|split; [exact Sm'|split; [|split; [rewrite !insert_length; auto|split]]]]].
        -- destruct c as [dc Lc tc], c' as [dc' Lc' tc']. destruct H1 as (E1 & E2 & E3 & E4). cbn in E1, E2. subst dc' Lc'. cbn.
           assert (HC : clike (same_reply (<[i:=mkConn h (Some (cmd, cur m)) rest]> ss) (cur m)) (mkC dc Lc (<[i := mkT (exec_in_db cmd) false]> tc)) (mkC dc Lc (<[i := mkT (client_from [] (pieces cmd)) false]> tc'))); [|exact HC].
           do 2 (split; [reflexivity|]). cbn. split; [rewrite !insert_length; exact E3|]. intros k t1 u1 Ht1 Hu1. cbn in E4.
           apply lookup_upd in Ht1 as [[<- ->]|[Hn Ht1]].
           ++ rewrite list_lookup_insert in Hu1 by (eapply lookup_lt_Some; eauto). injection Hu1 as <-. split; [reflexivity|]. cbn. eapply like_mono; [|apply cmd_pieces].
              cbn. intros r ps (qs' & -> & _ & HJ) s cmd' Hs Hb'. rewrite list_lookup_insert in Hs by (eapply lookup_lt_Some; eauto). injection Hs as <-. exact HJ.
           ++ rewrite list_lookup_insert_ne in Hu1 by auto. destruct (E4 k t1 u1 Ht1 Hu1) as [A1 A2]. split; [exact A1|]. eapply like_mono; [|exact A2].
              intros r ps Hr s cmd' Hs Hb'. rewrite list_lookup_insert_ne in Hs by auto. eapply Hr; eauto.
        -- apply li_upd with (a := a) (D := D); auto; [apply (li_data _ _ _ _ _ H4)|apply (li_alive _ _ _ _ _ H4)|apply L_idle|].
           eapply List.Forall_impl; [|apply okl_pieces; exact Hok]. intros p (K1 & K2 & K3). exact (lin_cmd_ok T lim HT K p K1 K2 K3).
        -- apply Forall2_insert; auto. unfold slot. cbn. rewrite decide_True by auto. reflexivity.
        -- apply Forall_insert; auto. cbn. apply okl_pieces. auto.
      * destruct (L5 j c2 Hc2) as (D & HD & Hk). exists D. split; auto. eapply (core_acc _ _ _ _ _ i); [exact Ha| |].
        -- intros x Hx. unfold slot in *. cbn in *. rewrite decide_False by auto. exact Hx.
        -- destruct Hk as [(c' & hs & a & qs & cl & H1 & H2)]. constructor. exists c', hs, a, qs, cl. split; auto. eapply clike_mono; [|exact H1].
           intros i' r ps Hr s cmd' Hs Hb'. apply lookup_upd in Hs as [[-> ->]|[_ Hs]]; [cbn in Hb'; congruence|]. eapply Hr; eauto.
  - (* a step in a database *)
    destruct (j_core _ _ L j c Hj) as (D & HD & [(c' & hs & a & qs & cl & H1 & H2 & H3 & H4 & H5 & H6 & H7)]). cbn in *.
    destruct (like_cstep _ _ _ _ _ Hs H1) as (c1' & Hs' & H1'). destruct (sim_step _ _ _ _ _ _ _ H2 H3 Hs') as (hs' & a' & qs' & G' & S' & R).
    destruct (li_steps T K t0 lim HT0 _ _ R _ H4) as ([D' cl'] & R0 & L').
    assert (R1 : rtc (turn T) (D, cl) (D', cl')). { apply turns0; auto. pose proof (li_data _ _ _ _ _ H4) as E. cbn in E |- *. rewrite E. apply (li_alive _ _ _ _ _ H4). }
    destruct (turns_jsteps j _ _ R1 m accs HD H6) as (accs' & RJ & S1 & S2 & S3).
    assert (L3 : Forall2 acct ss accs') by (apply S3; apply (j_acc _ _ L)).
    assert (Hk : core_ok ss accs' j c1 D').
    { constructor. exists c1', hs', a', qs', cl'. do 4 (split; auto). split; [symmetry; eapply Forall2_length; eauto|]. split; auto. exact (turns_okp _ _ R1 H7). }
    eexists. split; [exact RJ|]. cbn. destruct L as [L1 L2 L3' L4 L5]. cbn in *. constructor; cbn; auto.
    + rewrite !insert_length. auto.
    + intros j' c2 Hc2. apply lookup_upd in Hc2 as [[<- ->]|[Hne Hc2]].
      * exists D'. split; [apply list_lookup_insert; eapply lookup_lt_Some; eauto|exact Hk].
      * rewrite list_lookup_insert_ne by auto. destruct (L5 j' c2 Hc2) as (D2 & HD2 & [(c0 & hs0 & a0 & qs0 & cl0 & Q1 & Q2 & Q3 & Q4 & Q5 & Q6 & Q7)]). exists D2. split; auto. constructor.
        exists c0, hs0, a0, qs0, cl0. do 4 (split; auto). assert (Q6' : Forall2 (slot j') accs' cl0) by (apply S2; auto). split; [symmetry; eapply Forall2_length; eauto|]. split; auto.
  - (* a reply *)
    destruct (j_core _ _ L j c Hj) as (D & HD & [(c' & hs & a & qs & cl & H1 & H2 & H3 & H4 & H5 & H6 & H7)]). cbn in *.
    destruct (clike_at _ _ _ _ _ H1 Ht) as ([q b] & Hu & Hann & Hlk). cbn in Hann, Hlk. inversion Hlk as [? ps HJ| | | | | | | | | | | | | | | |]; subst.
    assert (HJ' : joins ps r) by (eapply HJ; eauto). clear HJ.
    destruct (get_h _ _ _ _ _ _ H2 Hu) as (h0 & Hh0 & W0 & _). cbn in W0. assert (h0 = Idle) as -> by (inversion W0; auto).
    destruct (s_th _ _ _ _ _ H3 i Idle _ Hh0 Hu) as (q & Hq & Hts). cbn in Hts. subst q.
    destruct (li_get T K lim _ _ _ _ _ _ H4 Hq) as (acc & tds & Hcl & Hlt & HF).
    destruct (settle T K lim D cl i _ acc tds Hcl Hlt HF) as (acc' & tds' & R0 & Hse & HF'); [pose proof (li_data _ _ _ _ _ H4) as E; cbn in E; rewrite E; apply (li_alive _ _ _ _ _ H4)|].
    assert (Hfin : acc' = ps /\ tds' = []).
    { remember (Ret ps) as q eqn:E. destruct Hse as [acc'|acc' cmd' rest' p Hs Hr Hrep|acc' r' rest' p Hpo Hr].
      - injection E as ->. auto.
      - exfalso. destruct p; try discriminate. apply Hr. eexists; eauto.
      - exfalso. destruct p; try discriminate. apply Hr. eexists; eauto. }
    destruct Hfin as [-> ->].
    assert (R1 : rtc (turn T) (D, cl) (D, <[i := (ps, [])]> cl)). { apply turns0; auto. cbn. pose proof (li_data _ _ _ _ _ H4) as E; cbn in E; rewrite E. apply (li_alive _ _ _ _ _ H4). }
    destruct (turns_jsteps j _ _ R1 m accs HD H6) as (accs' & RJ & S1 & S2 & S3). cbn in RJ, S1. rewrite list_insert_id in RJ by auto.
    replace (mkMgr (cur m) (mdbs m)) with m in RJ by (destruct m; reflexivity).
    destruct L as [L1 L2 L3 L4 L5]. cbn in *. specialize (S3 _ L3).
    destruct (Forall2_lookup_l _ _ _ _ _ S3 Hi) as ([l cu] & Ha & Hac & Hcu). cbn in Hac, Hcu. subst l. destruct Hcu as (rs & lf & ->).
    destruct (Forall2_lookup_l _ _ _ _ _ S1 Ha) as (x & Hx & Hsl). rewrite list_lookup_insert in Hx by (eapply lookup_lt_Some; eauto). injection Hx as <-.
    unfold slot in Hsl. cbn in Hsl. rewrite decide_True in Hsl by auto. injection Hsl as <- <-.
    eexists. split; [eapply rtc_r; [exact RJ|]; eapply J_end; eauto|]. constructor; cbn; auto.
    + apply Forall2_insert; auto. split; cbn; auto.
    + intros i' s' Hs'. apply lookup_upd in Hs' as [[<- ->]|[Hn Hs']]; [|eauto]. destruct (L4 i _ Hi) as [F _]. cbn in *. split; auto. discriminate.
    + intros j' c2 Hc2. destruct (decide (j' = j)) as [->|Hne].
      * exists D. split; auto. assert (c2 = c) as -> by congruence. apply core_idle; auto.
        eapply core_acc; [exact Ha| |].
        -- intros x Hxx. unfold slot in *. cbn in *. rewrite decide_True in Hxx by auto. subst x. reflexivity.
        -- constructor. exists c', hs, a, qs, (<[i := (ps, [])]> cl). do 3 (split; auto). split; [|split; [symmetry; eapply Forall2_length; eauto|split; [auto|exact (turns_okp _ _ R1 H7)]]].
           rewrite <- (list_insert_id qs i (Ret ps) Hq). apply li_upd with (a := a) (D := D); auto; [apply (li_data _ _ _ _ _ H4)|apply (li_alive _ _ _ _ _ H4)|apply settled_lthr; auto].
      * destruct (L5 j' c2 Hc2) as (D2 & HD2 & [(c0 & hs0 & a0 & qs0 & cl0 & Q1 & Q2 & Q3 & Q4 & Q5 & Q6 & Q7)]). exists D2. split; auto. apply core_idle; auto.
        eapply core_acc; [exact Ha| |].
        -- intros x Hxx. unfold slot in *. cbn in *. rewrite decide_False in Hxx by auto. exact Hxx.
        -- constructor. exists c0, hs0, a0, qs0, cl0. do 4 (split; auto). assert (Q6' : Forall2 (slot j') accs' cl0) by (apply S2; auto). split; [symmetry; eapply Forall2_length; eauto|]. split; auto.
Qed.
End WithParams.

Section Final.
Context {P : Setup}.
Lemma ji_start (T : Z -> Prop) K lim sl ds css : (forall d, d ∈ ds -> alive K lim (data_of d)) -> each (okl T K lim) css ->
  JI T K lim (serve sl ds css) (mkMgr sl ds, replicate (length css) (mkAcc [] None)).
Proof.
  intros Ha Hok. set (idle := map (fun _ : list command => @nil command) css).
  assert (Ei : map client idle = map (fun _ => Ret []) css) by (unfold idle; rewrite map_map; reflexivity).
  assert (Hacc : Forall2 acct (map (fun cmds => mkConn [] None cmds) css) (replicate (length css) (mkAcc [] None))).
  { clear. induction css as [|cs css IH]; cbn; constructor; auto. split; reflexivity. }
  constructor; cbn; auto.
  - rewrite map_length. reflexivity.
  - intros i s Hi. apply map_lookup_some in Hi as (cmds & Hi & ->). cbn. split; [|discriminate]. apply elem_of_list_lookup_2 in Hi.
    apply Forall_forall. intros cmd Hc. apply elem_of_list_In in Hc. eapply Hok; eauto.
  - intros j c Hj. apply map_lookup_some in Hj as (d & Hj & ->). exists d. split; auto. constructor.
    exists (clients d idle), (map (fun _ => Idle) (map client idle)), (data_of d), (map client idle), (before idle).
    split; [|split; [apply good_start|split; [apply sim_start|split; [apply li_start|split; [|split]]]]].
    + do 2 (split; [reflexivity|]). cbn. rewrite Ei. split; [rewrite !map_length; reflexivity|]. intros i t u Ht Hu.
      apply map_lookup_some in Ht as (p & Hp & ->). apply map_lookup_some in Hp as (cmds & Hp & ->). apply map_lookup_some in Hu as (q & Hq & ->). apply map_lookup_some in Hq as (cmds' & Hq & ->).
      split; [reflexivity|]. cbn. constructor. intros s cmd Hs Hb. apply map_lookup_some in Hs as (? & _ & ->). discriminate.
    + rewrite Ei. apply Forall_forall. intros p Hp. apply in_map_iff in Hp as (? & <- & _). constructor.
    + apply Ha. eapply elem_of_list_lookup_2; eauto.
    + apply Forall_forall. intros l Hl. apply in_map_iff in Hl as (? & <- & _). constructor.
    + unfold before, idle. rewrite !map_length, replicate_length. reflexivity.
    + unfold before, idle. clear. induction css as [|cs css IH]; cbn; constructor; auto. reflexivity.
    + unfold before, idle. apply Forall_forall. intros x Hx. rewrite map_map in Hx. apply in_map_iff in Hx as (? & <- & _). constructor.
Qed.
Lemma ji_holds T K lim x z j c D key : JI T K lim x z -> cores x !! j = Some c -> mdbs z.1 !! j = Some D -> wr (lk c (lockpos key)) = false -> stored D key = stored (cdb c) key.
Proof.
  intros L Hc HD Hw. destruct (j_core _ _ _ _ _ L j c Hc) as (D' & HD' & [(c' & hs & a & qs & cl & (E1 & E2 & _) & H2 & H3 & H4 & _)]). assert (D' = D) as -> by congruence.
  destruct (sim_corresponds _ _ _ _ _ _ H2 H3) as (_ & _ & Hk). rewrite E2 in Hw. destruct (Hk key Hw) as [K1 K2]. pose proof (li_data _ _ _ _ _ H4) as E. cbn in E, K1, K2. rewrite <- E, <- E1 in K1, K2.
  unfold stored. cbn in K1, K2. rewrite K1, K2. reflexivity.
Qed.
(** From the databases of the model to keyspaces. *)
Lemma called_select cmd : is_select cmd = true <-> called "select" cmd.
Proof.
  split; [destruct cmd as [|n args]; [discriminate|]; intros H; exists n, args; split; auto; apply is_select_named in H; exact H|].
  intros (n & args & -> & H). apply is_select_named. exact H.
Qed.
Lemma jstep_serves (T : Z -> Prop) z z' : (exists t, T t) -> invs z.1 -> jstep T z z' -> serves T (store_of z.1, z.2) (store_of z'.1, z'.2) /\ invs z'.1.
Proof.
  intros [now Hnow] I H. destruct H as [m cl i l cmd Hi Hs|m cl i l cmd Hi Hs|m cl i l cmd j rs p rest now' D r D' Hi Hn HD Hst|m cl i l cmd j rs r Hi HJ]; cbn in *.
  - destruct (mexec_srv now m cmd (select m cmd).1 (select m cmd).2 I) as [Hx I']; [apply mx_select; exact Hs|]. split; [|exact I'].
    eapply sv_selects; eauto. apply called_select. exact Hs.
  - split; [|exact I]. apply sv_begins; auto. intros H. apply called_select in H. congruence.
  - assert (Hd : D ∈ mdbs m) by (eapply elem_of_list_lookup_2; eauto). split.
    + unfold store_of. cbn. replace (map stored (<[j := D']> (mdbs m))) with (<[j := stored D']> (map stored (mdbs m))) by (symmetry; apply (list_fmap_insert stored)).
      eapply sv_part; eauto; [rewrite list_lookup_fmap, HD; reflexivity|]. exact (ref_exact now' D p (Done r D') (I _ Hd) Hst).
    + intros x Hx. cbn in Hx. apply elem_of_list_lookup in Hx as [k Hk]. apply lookup_upd in Hk as [[<- ->]|[_ Hk]]; [exact (step_inv _ _ _ _ _ (I _ Hd) Hst)|]. apply I. eapply elem_of_list_lookup_2; eauto.
  - split; [|exact I]. eapply sv_ends; eauto.
Qed.
Lemma jsteps_serves (T : Z -> Prop) z z' : (exists t, T t) -> rtc (jstep T) z z' -> invs z.1 -> rtc (serves T) (store_of z.1, z.2) (store_of z'.1, z'.2) /\ invs z'.1.
Proof.
  intros HT. induction 1 as [z|z z1 z' Hs _ IH]; intros I; [split; [apply rtc_refl|auto]|]. destruct (jstep_serves T z z1 HT I Hs) as [H1 I1]. destruct (IH I1) as [H2 I2].
  split; auto. eapply rtc_l; eauto.
Qed.

Theorem parts_machine (T : Z -> Prop) lim dbs css (f : nat -> world) N : (1 <= dbs)%nat -> (exists t, T t) -> (forall t, T t -> t <= lim) ->
  f 0%nat = boot 0 (replicate dbs empty_db) (length css) -> (forall n, (n < N)%nat -> happens T (f n) (f (S n))) ->
  (forall i p, peers (f N) !! i = Some p -> exists cs, css !! i = Some cs /\ asks (concat (given (lnk p))) cs) ->
  each locked css -> each (far_deadlines T lim) css ->
  exists g : nat -> mcount, g 0%nat = (mkMgr 0 (replicate dbs empty_db), replicate (length css) (mkAcc [] None)) /\ (forall n, (n < N)%nat -> rtc (jstep T) (g n) (g (S n))) /\
    forall n, (n <= N)%nat -> JI T (names css) lim (net css (f n)) (g n) /\ (forall i a, (g n).2 !! i = Some a -> exists p, peers (f n) !! i = Some p) /\
      forall i p, peers (f n) !! i = Some p -> exists a cs rest, (g n).2 !! i = Some a /\ agrees p a /\
        css !! i = Some cs /\ cs = map fst (paid a) ++ match current a with Some t => [asked_for t] | None => [] end ++ rest.
Proof.
  intros Hdb Ht HT H0 Hf Ha H1 H2. pose proof (all_along T _ _ _ f N H0 Hf) as A. pose proof (asks_fit css (f N) (A N ltac:(lia)) Ha) as HF.
  pose proof (along T _ _ css f N H0 Hf HF) as AL. destruct Ht as [t0 Ht0].
  set (z0 := (mkMgr 0 (replicate dbs empty_db), replicate (length css) (mkAcc [] None)) : mcount).
  assert (G : forall n, (n <= N)%nat -> GI (net css (f n))).
  { induction n as [|n IH]; intros Hn; [rewrite H0, net_boot; apply gi_serve; rewrite replicate_length; lia|]. destruct (AL n ltac:(lia)) as [A1 A2].
    destruct (net_step T css _ _ A1 A2 (Hf n ltac:(lia))) as [E|E]; [rewrite E; apply IH; lia|]. eapply gi_step; [apply IH; lia|exact E]. }
  assert (HG : exists g : nat -> mcount, g 0%nat = z0 /\ (forall n, (n < N)%nat -> rtc (jstep T) (g n) (g (S n))) /\ forall n, (n <= N)%nat -> JI T (names css) lim (net css (f n)) (g n)).
  { assert (HM : forall M, (M <= N)%nat -> exists g : nat -> mcount, g 0%nat = z0 /\ (forall n, (n < M)%nat -> rtc (jstep T) (g n) (g (S n))) /\ forall n, (n <= M)%nat -> JI T (names css) lim (net css (f n)) (g n)).
    { induction M as [|M IH]; intros HM.
      - exists (fun _ => z0). split; [auto|]. split; [intros; lia|]. intros n Hn. assert (n = 0%nat) as -> by lia. rewrite H0, net_boot. apply ji_start.
        + intros d Hd key t _ E. eapply names_empty; eauto.
        + intros cmds cmd Hx Hy. split; [eapply H1; eauto|]. split; [eapply H2; eauto|]. intros k Hk. exists cmds, cmd. auto.
      - destruct (IH ltac:(lia)) as (g & g0 & gS & gJ). destruct (AL M ltac:(lia)) as [A1 A2].
        assert (HS : exists z', rtc (jstep T) (g M) z' /\ JI T (names css) lim (net css (f (S M))) z').
        { destruct (net_step T css _ _ A1 A2 (Hf M ltac:(lia))) as [E|E].
          - exists (g M). split; [apply rtc_refl|]. rewrite E. apply gJ. lia.
          - exact (ji_step T (names css) t0 lim Ht0 HT _ _ _ (G M ltac:(lia)) (gJ M ltac:(lia)) E). }
        destruct HS as (z' & Rz & Jz). exists (fun n => if (n <=? M)%nat then g n else z'). split; [auto|]. split.
        + intros n Hn. destruct (Nat.leb_spec (S n) M), (Nat.leb_spec n M); try lia; [apply gS; lia|]. assert (n = M) as -> by lia. exact Rz.
        + intros n Hn. destruct (Nat.leb_spec n M); [apply gJ; lia|]. assert (n = S M) as -> by lia. exact Jz. }
    exact (HM N ltac:(lia)). }
  destruct HG as (g & g0 & gS & gJ). exists g. split; [auto|]. split; [auto|]. intros n Hn. pose proof (gJ n Hn) as L. split; [auto|]. split.
  - intros i a Hi. destruct (Forall2_lookup_r _ _ _ _ _ (j_acc _ _ _ _ _ L) Hi) as (s & Hs & _). cbn in Hs. rewrite list_lookup_imap in Hs. destruct (peers (f n) !! i) as [p|]; [eauto|discriminate].
  - intros i p Hi. destruct (AL n Hn) as [A1 A2]. destruct (A2 i p Hi) as (cs & rest & Hcs & Hc). pose proof (A1 i p Hi) as I1.
    destruct (Forall2_lookup_l _ _ _ _ _ (j_acc _ _ _ _ _ L) (net_lookup css _ i p Hi)) as (a & Hacc & Hpaid & Hcur). cbn in Hpaid, Hcur. unfold busy_of in Hcur.
    assert (Hag : agrees p a).
    { split; [exact Hpaid|]. split; [rewrite Hpaid; apply (pv_wire _ I1)|]. destruct (runs_on p) as [j|] eqn:Er; [|exact Hcur]. destruct (pv_run _ I1 j Er) as (cmd & Hx & _). rewrite Hx in Hcur.
      destruct Hcur as (rs & ps & Hcur). eauto. }
    exists a, cs. unfold handed in Hc. destruct Hag as (_ & Hag2 & Hag3). destruct (runs_on p) as [j|] eqn:Er.
    * destruct Hag3 as (cmd & rs & ps & Hx & Hcu). exists rest. split; [auto|]. split; [split; [exact Hpaid|]; split; [auto|]; rewrite Er; eauto|]. split; [auto|]. rewrite Hcu, Hpaid. cbn [asked_for].
      rewrite Hx, <- app_assoc in Hc. exact Hc.
    * eexists. split; [auto|]. split; [split; [exact Hpaid|]; split; [auto|]; rewrite Er; auto|]. split; [auto|]. rewrite Hag3, Hpaid. cbn [app]. rewrite <- app_assoc in Hc. exact Hc.
Qed.
Theorem parts_whole (T : Z -> Prop) lim dbs css (f : nat -> world) N : (1 <= dbs)%nat -> (exists t, T t) -> (forall t, T t -> t <= lim) ->
  f 0%nat = boot 0 (replicate dbs empty_db) (length css) -> (forall n, (n < N)%nat -> happens T (f n) (f (S n))) ->
  (forall i p, peers (f N) !! i = Some p -> exists cs, css !! i = Some cs /\ asks (concat (given (lnk p))) cs) ->
  each locked css -> each (far_deadlines T lim) css ->
  exists g : nat -> counter, clean_slate dbs (length css) (g 0%nat) /\ (forall n, (n < N)%nat -> rtc (serves T) (g n) (g (S n))) /\
    forall n, (n <= N)%nat -> holds (f n) (g n).1 /\
      forall i p, peers (f n) !! i = Some p -> exists a cs rest, (g n).2 !! i = Some a /\ agrees p a /\
        css !! i = Some cs /\ cs = map fst (paid a) ++ match current a with Some t => [asked_for t] | None => [] end ++ rest.
Proof.
  intros Hdb Ht HT H0 Hf Ha H1 H2. destruct (parts_machine T lim dbs css f N Hdb Ht HT H0 Hf Ha H1 H2) as (g & g0 & gS & gA).
  assert (I : forall n, (n <= N)%nat -> invs (g n).1).
  { induction n as [|n IH]; intros Hn.
    - rewrite g0. intros d Hd. cbn in Hd. apply elem_of_replicate in Hd as [-> _]. apply inv_empty.
    - eapply jsteps_serves; [eauto|apply gS; lia|apply IH; lia]. }
  exists (fun n => (store_of (g n).1, (g n).2)). split; [|split].
  - rewrite g0. split; [|reflexivity]. unfold vacant, store_of. cbn. split; [auto|]. split; [rewrite map_length, replicate_length; auto|]. intros M k HM. apply elem_of_list_fmap in HM as (d & -> & Hd).
    apply elem_of_replicate in Hd as [-> _]. unfold stored. cbn. rewrite lookup_empty. reflexivity.
  - intros n Hn. apply jsteps_serves; [eauto|apply gS; auto|apply I; lia].
  - intros n Hn. destruct (gA n Hn) as (L & _ & Hag). split; [|exact Hag].
    + unfold holds, store_of. cbn [fst snd]. split; [symmetry; apply (j_sel _ _ _ _ _ L)|]. split; [rewrite map_length; symmetry; apply (j_len _ _ _ _ _ L)|].
      intros j c M Hj HM key Hk. rewrite list_lookup_fmap in HM. destruct (mdbs (g n).1 !! j) as [d|] eqn:Ed; [|discriminate]. injection HM as <-.
      eapply (ji_holds _ _ _ _ _ _ _ _ key L); eauto.
Qed.
Theorem parts_rests (T : Z -> Prop) lim dbs css x : (1 <= dbs)%nat -> (exists t, T t) -> (forall t, T t -> t <= lim) ->
  rtc (happens T) (boot 0 (replicate dbs empty_db) (length css)) x -> now_is x = Running -> (forall y, ~ wadvance T x y) -> ~ spins x ->
  (forall i p, peers x !! i = Some p -> stg p <> Away /\ exists cs, css !! i = Some cs /\ asks (concat (given (lnk p))) cs) ->
  each locked css -> each (far_deadlines T lim) css ->
  exists z0 z, clean_slate dbs (length css) z0 /\ rtc (serves T) z0 z /\ holds x z.1 /\
    forall i p cs, peers x !! i = Some p -> css !! i = Some cs -> exists a, z.2 !! i = Some a /\ current a = None /\ map fst (paid a) = cs /\ replied (paid a) (written p).
Proof.
  intros Hdb Ht HT R Hrun Hn Hsp Ha H1 H2. destruct (rtc_path _ _ _ R) as (N & f & H0 & HN & Hf).
  destruct (parts_whole T lim dbs css f N Hdb Ht HT H0 Hf) as (g & g0 & gS & gA); auto.
  { rewrite HN. intros i p Hi. destruct (Ha i p Hi); auto. }
  exists (g 0%nat), (g N). split; [auto|]. split.
  { assert (HM : forall M, (M <= N)%nat -> rtc (serves T) (g 0%nat) (g M)); [|apply HM; lia]. induction M as [|M IH]; intros HM; [apply rtc_refl|]. etransitivity; [apply IH; lia|apply gS; lia]. }
  destruct (gA N ltac:(lia)) as [Hh Hp]. rewrite HN in *. split; [auto|]. intros i p cs Hi Hcs.
  destruct (Hp i p Hi) as (a & cs' & rest & Hacc & (E1 & E2 & E3) & Hcs' & _). destruct Ht as [now Hnow].
  destruct (world_any_rests T now 0 (replicate dbs empty_db) _ x Hnow ltac:(rewrite replicate_length; lia) R Hrun Hn) as [|W]; [contradiction|].
  destruct (Ha i p Hi) as [Hst (cs2 & Hcs2 & ks & t & Hr & ->)]. rewrite Hcs in Hcs2. injection Hcs2 as ->. destruct (W i p Hi Hst) as [_ W2]. destruct (W2 ks t Hr) as (F1 & F2 & F3).
  exists a. split; [auto|]. split; [|rewrite E1; auto]. destruct (runs_on p) as [j|] eqn:Er; [|auto]. destruct E3 as (cmd & rs & ps & Hx & _). destruct F3 as [(F3 & _)|(e & F3 & _)]; congruence.
Qed.
(** The replies to the pieces determine the reply. *)
Lemma joins_fun ps r r' : ps <> [] -> joins ps r -> joins ps r' -> r = r'.
Proof.
  assert (HA : forall ls ls', map (fun l => RArr (Some l)) ls = map (fun l => RArr (Some l)) ls' -> ls = ls').
  { induction ls as [|l ls IH]; intros [|l' ls'] E; try discriminate; auto. injection E as -> E. f_equal. auto. }
  assert (HI : forall ns ns', map RInt ns = map RInt ns' -> ns = ns').
  { induction ns as [|n ns IH]; intros [|n' ns'] E; try discriminate; auto. injection E as -> E. f_equal. auto. }
  assert (Hk : forall ps' r, joins ps' r -> (forall q, ps' = [q] -> r = q) /\ (forall ns, ns <> [] -> ps' = map RInt ns -> r = RInt (foldr Z.add 0 ns)) /\
    (forall ls, ls <> [] -> ps' = map (fun l => RArr (Some l)) ls -> r = RArr (Some (concat ls)))).
  { intros ps' q []; (split; [|split]).
    - intros q' E. congruence.
    - intros [|n [|? ?]] _ E; try discriminate. injection E as ->. cbn. f_equal. lia.
    - intros [|l [|? ?]] _ E; try discriminate. injection E as ->. cbn. rewrite app_nil_r. reflexivity.
    - intros q' E. destruct ns as [|n [|? ?]]; try discriminate. injection E as <-. cbn. f_equal. lia.
    - intros ns' _ E. apply HI in E. subst. reflexivity.
    - intros [|l ls] Hn E; [contradiction|]. destruct ns; discriminate.
    - intros q' E. destruct ls as [|l [|? ?]]; try discriminate. injection E as <-. cbn. rewrite app_nil_r. reflexivity.
    - intros [|n ns] Hn E; [contradiction|]. destruct ls; discriminate.
    - intros ls' _ E. apply HA in E. subst. reflexivity. }
  intros Hne H1 H2. destruct (Hk _ _ H2) as (K1 & K2 & K3). destruct H1 as [r|ns|ls].
  - symmetry. apply K1. reflexivity.
  - symmetry. apply K2; [|reflexivity]. intros ->. apply Hne. reflexivity.
  - symmetry. apply K3; [|reflexivity]. intros ->. apply Hne. reflexivity.
Qed.
End Final.
