(** The whole process with commands that never end: proofs. *)
From Verif Require Export SpecStall HoldupProofs FlowProofs GramWorld.

Section WithParams.
Context {P : Setup}.

(** ** The executors of a database, each with the command that it executes *)
Definition runs (x : server) (j i : nat) (cmd : command) : Prop := exists s, sess x !! i = Some s /\ busy s = Some (cmd, j).
Definition own (cmd : command) (h : lstate) (p : prog rdata) : Prop := lw (fun _ => True) (fun _ q => lock_of (touched cmd) q) h p /\ sub (touched cmd) h.
Definition held_well (x : server) (j : nat) (c : conf rdata) : Prop :=
  (exists hs, good true true c hs /\ forall i t h cmd, runs x j i cmd -> ths c !! i = Some t -> hs !! i = Some h -> own cmd h (tcode t)) /\
  exists fl, all_safe fl c /\ forall i cmd, runs x j i cmd -> ~ may_loop cmd -> (fl i).2 = false.
Definition NI (x : server) : Prop := forall j c, cores x !! j = Some c -> held_well x j c.

Lemma lw_wf {A} (K : bytes -> Prop) u s h (p : prog A) : Wf.wf K u s Idle h p -> lw (fun _ => True) (fun _ q => lock_of K q) h p.
Proof.
  intros H. induction H; cbn; auto.
  - split; [auto|]. intros h1 Hl. inversion Hl; subst; auto.
  - split; [auto|]. intros h1 Hl. inversion Hl; subst; auto.
  - intros h1 Hl. inversion Hl; subst; auto.
  - intros h1 Hl. inversion Hl; subst; auto.
Qed.
Lemma own_exec cmd : own cmd Idle (exec_in_db cmd).
Proof. split; [exact (lw_wf _ _ _ _ _ (exec_wf cmd))|]. intros x Hx. inversion Hx. Qed.
Lemma own_lock cmd h q m (a : bool) p h1 : own cmd h (if a then Acq q m p else Rel q m p) -> lstep h q m a h1 -> own cmd h1 p.
Proof.
  intros [H1 H2] Hl. split.
  - destruct a; cbn in H1; [apply (proj2 H1)|apply H1]; auto.
  - intros x Hx. destruct (lstep_hlocks _ _ _ _ _ _ Hl Hx) as [?|[-> ->]]; auto. cbn in H1. apply H1.
Qed.
Lemma well_sub x x' j c : held_well x j c -> (forall i cmd, runs x' j i cmd -> runs x j i cmd) -> held_well x' j c.
Proof. intros [(hs & G & H) (fl & S & HS)] Hr. split; [exists hs; split; auto; intros i t h cmd R; eapply H; eauto|exists fl; split; auto; intros i cmd R; eapply HS; eauto]. Qed.
Lemma well_step T x j c c' : held_well x j c -> cstep T c c' -> held_well x j c'.
Proof.
  intros [(hs & G & H) (fl & S & HS)] St. split; [|exists fl; split; [eapply all_safe_step; eauto|auto]].
  destruct (good_step_at _ _ _ _ G St) as (hs' & k & p & p' & b & b' & G' & Hk & Hc & Hcase). exists hs'. split; auto.
  intros i t h cmd R Ht Hh. rewrite Hc in Ht. destruct Hcase as [[-> Hp]|(h0 & h1 & q & m & a & Hh0 & -> & Hl & ->)].
  - apply lookup_put in Ht as [[-> ->]|[Hn Ht]]; [|eauto]. destruct (H _ _ _ _ R Hk Hh) as [H1 H2]. split; auto. cbn in *. destruct Hp as [->|Hp]; auto. eapply lw_prim; eauto.
  - apply lookup_put in Ht as [[-> ->]|[Hn Ht]]; [|rewrite list_lookup_insert_ne in Hh by auto; eauto].
    apply lookup_put in Hh as [[_ ->]|[? _]]; [|congruence]. pose proof (H _ _ _ _ R Hk Hh0) as H1. cbn in *. eapply own_lock; eauto.
Qed.
Lemma may_loop_dec cmd : {may_loop cmd} + {~ may_loop cmd}.
Proof. destruct cmd as [|n r]; [right; intros []|]. unfold may_loop, named. destruct (decide (to_lower (str n) = B "linsert")); [left|right]; auto. Qed.
Lemma well_start x x' j c i cmd v b : held_well x j c -> ths c !! i = Some (mkT (Ret v) b) -> (forall i' cmd', i' <> i -> runs x' j i' cmd' -> runs x j i' cmd') ->
  (forall cmd', runs x' j i cmd' -> cmd' = cmd) -> held_well x' j (mkC (cdb c) (lk c) (<[i := mkT (exec_in_db cmd) false]> (ths c))).
Proof.
  intros [(hs & G & H) (fl & S & HS)] Ht Ho Hi. split.
  - destruct (good_arrive _ _ _ _ _ _ _ (exec_in_db cmd) G Ht) as (H0 & _ & G'); [apply exec_wf_us; auto|]. exists hs. split; auto. cbn. intros i' t h cmd' R Ht' Hh.
    apply lookup_put in Ht' as [[<- ->]|[Hn Ht']]; [|eapply H; eauto]. assert (h = Idle) as -> by congruence. rewrite (Hi _ R). apply own_exec.
  - exists (fun i' => if decide (i' = i) then (true, if may_loop_dec cmd then true else false) else fl i'). split.
    + apply (all_safe_arrive _ c i v b); [|exact Ht|apply exec_wf_us; auto|].
      * destruct S as (hs' & G' & S). exists hs'. split; auto. intros i' t h Ht' Hh. case_decide as E; [subst i'|eauto]. assert (t = mkT (Ret v) b) as -> by congruence. apply knows_fresh. constructor.
      * rewrite decide_True by auto. cbn. apply exec_safe; [discriminate|]. destruct (may_loop_dec cmd); [discriminate|auto].
    + intros i' cmd' R N. case_decide as E; [subst i'|eauto]. rewrite (Hi _ R) in N. cbn. destruct (may_loop_dec cmd); [contradiction|auto].
Qed.
Lemma runs_put sl cs ss sl' cs' j i i' h r cmd s : ss !! i = Some s -> runs (mkServer sl' cs' (<[i := mkConn h None r]> ss)) j i' cmd -> runs (mkServer sl cs ss) j i' cmd.
Proof. intros Hi (s' & Hs & Hb). cbn in Hs. apply lookup_put in Hs as [[<- ->]|[Hn Hs]]; [discriminate|]. exists s'. auto. Qed.
Lemma ni_step T x y : GI x -> NI x -> nstep T x y -> NI y.
Proof.
  intros GIx H St. destruct St as [sl cs ss i h cmd rest Hi Hsel|sl cs ss i h cmd rest c Hi Hsel Hc|sl cs ss j c c' Hj Hs|sl cs ss i h cmd j rest c r Hi Hj Ht]; intros j0 c0 Hj0; cbn in Hj0.
  - eapply well_sub; [exact (H _ _ Hj0)|]. intros i' cmd' R. eapply runs_put; eauto.
  - assert (Hr : forall j0 i' cmd', i' <> i -> runs (mkServer sl (<[sl:=mkC (cdb c) (lk c) (<[i:=mkT (exec_in_db cmd) false]> (ths c))]> cs) (<[i:=mkConn h (Some (cmd, sl)) rest]> ss)) j0 i' cmd' -> runs (mkServer sl cs ss) j0 i' cmd').
    { intros j1 i' cmd' Hn (s & Hs & Hb). cbn in Hs. rewrite list_lookup_insert_ne in Hs by auto. exists s. auto. }
    assert (He : forall j0 cmd', runs (mkServer sl (<[sl:=mkC (cdb c) (lk c) (<[i:=mkT (exec_in_db cmd) false]> (ths c))]> cs) (<[i:=mkConn h (Some (cmd, sl)) rest]> ss)) j0 i cmd' -> cmd' = cmd /\ j0 = sl).
    { intros j1 cmd' (s & Hs & Hb). cbn in Hs. rewrite list_lookup_insert in Hs by (eapply lookup_lt_Some; eauto). injection Hs as <-. cbn in Hb. injection Hb as -> ->. auto. }
    apply lookup_put in Hj0 as [[<- ->]|[Hn Hj0]].
    + destruct GIx as [G1 G2 _ _]. destruct (G1 sl c Hc) as [_ Hl]. destruct (lookup_lt_is_Some_2 (ths c) i) as [[p b] Ht]; [rewrite Hl; eapply lookup_lt_Some; eauto|].
      destruct (G2 sl c i _ _ Hc Hi Ht) as [(cmd' & Hb)|[v E]]; [discriminate|]. cbn in E. subst p.
      eapply well_start; [exact (H _ _ Hc)|exact Ht|eauto|]. intros cmd' R. apply (He _ _ R).
    + eapply well_sub; [exact (H _ _ Hj0)|]. intros i' cmd' R. destruct (decide (i' = i)) as [->|N]; [|eauto]. destruct (He _ _ R) as [_ ->]. contradiction.
  - apply lookup_put in Hj0 as [[<- ->]|[Hn Hj0]].
    + eapply well_sub; [eapply well_step; [exact (H _ _ Hj)|exact Hs]|]. intros i' cmd' (s & R). exists s. exact R.
    + eapply well_sub; [exact (H _ _ Hj0)|]. intros i' cmd' (s & R). exists s. exact R.
  - eapply well_sub; [exact (H _ _ Hj0)|]. intros i' cmd' R. eapply runs_put; eauto.
Qed.
Lemma ni_serve sl ds css : NI (serve sl ds css).
Proof.
  intros j c Hj. cbn in Hj. apply map_lookup_some in Hj as (d & Hj & ->).
  assert (N : forall i cmd, ~ runs (serve sl ds css) j i cmd). { intros i cmd (s & Hs & Hb). cbn in Hs. apply map_lookup_some in Hs as (? & _ & ->). discriminate. }
  assert (W : Forall (Wf.wf (fun _ => True) true true Idle Idle) (map (fun _ : list command => Ret Prog.rnil) css)). { apply Forall_forall. intros p Hp. apply in_map_iff in Hp as (? & <- & _). constructor. }
  split.
  - eexists. split; [apply good_start; exact W|]. intros i t h cmd R. destruct (N _ _ R).
  - exists (fun _ => (true, true)). split; [|intros i cmd R; destruct (N _ _ R)]. apply all_safe_start; [exact W|]. intros i p Hp. apply map_lookup_some in Hp as (? & _ & ->). constructor.
Qed.
Lemma ni_rtc T x y : rtc (nstep T) x y -> GI x -> NI x -> NI y.
Proof. induction 1; auto. intros G N. apply IHrtc; [eapply gi_step; eauto|eapply ni_step; eauto]. Qed.

(** ** Chains of waiting commands *)
Section Chain.
Context (x : server) (j : nat) (c : conf rdata) (HG : GI x) (HC : cores x !! j = Some c).
Context (Hall : forall i t, ths c !! i = Some t -> returned t \/ waits c t \/ tcode t = Hang).
(** As [held_up]. *)
Inductive blocked : N -> command -> Prop :=
| blocked_itself p i cmd t : may_loop cmd -> runs x j i cmd -> ths c !! i = Some t -> tcode t = Hang -> blocked p cmd
| blocked_behind p i cmd key i' cmd' key' : runs x j i cmd -> runs x j i' cmd' -> touched cmd key -> touched cmd' key' -> lockpos key = lockpos key' -> (p <= lockpos key)%N ->
    blocked (N.succ (lockpos key)) cmd' -> blocked p cmd.
Lemma unreturned_runs i t : ths c !! i = Some t -> ~ returned t -> exists cmd, runs x j i cmd.
Proof.
  intros Ht Hr. destruct HG as [G1 G2 _ _]. destruct (G1 j c HC) as [_ Hl]. destruct (lookup_lt_is_Some_2 (sess x) i) as [s Hs]; [rewrite <- Hl; eapply lookup_lt_Some; eauto|].
  destruct (G2 j c i s t HC Hs Ht) as [(cmd & Hb)|H]; [|contradiction]. exists cmd, s. auto.
Qed.
Lemma blocked_hang p i cmd t : held_well x j c -> runs x j i cmd -> ths c !! i = Some t -> tcode t = Hang -> blocked p cmd.
Proof.
  intros [_ (fl & S & HS)] R Ht E. destruct (may_loop_dec cmd) as [H|N]; [eapply blocked_itself; eauto|]. pose proof (HS _ _ R N) as Hf. destruct (all_safe_at _ _ _ _ S Ht) as [_ H]. specialize (H E). congruence.
Qed.
Lemma wait_chain : held_well x j c -> forall n i t cmd q m k p, runs x j i cmd -> ths c !! i = Some t -> tcode t = Acq q m k -> (p <= q)%N -> (ConcProofs.top (ths c) < q + N.of_nat n)%N -> blocked p cmd.
Proof.
  intros W. pose proof W as [(hs & G & H) _]. induction n as [|n IH]; intros i t cmd q m k p R Ht E Hp Hn.
  - pose proof (top_ge _ _ _ Ht) as H1. unfold wpos in H1. rewrite E in H1. lia.
  - assert (Hold : exists j t' h m', ths c !! j = Some t' /\ hs !! j = Some h /\ wft true true h t' /\ (0 < held m' q h)%nat).
    { assert (Hw : waits c t). { destruct (Hall _ _ Ht) as [[v E']|[?|E']]; [congruence|auto|congruence]. }
      assert (HR : rd (lk c q) <> 0%nat -> exists j t' h m', ths c !! j = Some t' /\ hs !! j = Some h /\ wft true true h t' /\ (0 < held m' q h)%nat).
      { intros Hr. destruct (held_by _ _ _ _ MR q G) as (i1 & t' & h & Hx); [rewrite <- (g_rd _ _ _ _ G); lia|]. exists i1, t', h, MR. auto. }
      assert (HW : wr (lk c q) = true -> exists j t' h m', ths c !! j = Some t' /\ hs !! j = Some h /\ wft true true h t' /\ (0 < held m' q h)%nat).
      { intros Hr. destruct (held_by _ _ _ _ MW q G) as (i1 & t' & h & Hx); [rewrite <- (g_wr _ _ _ _ G), Hr; cbn; lia|]. exists i1, t', h, MW. auto. }
      assert (HP : pend (lk c q) = true -> exists j t' h m', ths c !! j = Some t' /\ hs !! j = Some h /\ wft true true h t' /\ (0 < held m' q h)%nat).
      { intros Hr. assert (0 < ConcProofs.total (wants q) (ths c))%nat as Hx by (rewrite <- (g_pend _ _ _ _ G), Hr; cbn; lia).
        destruct (total_pos _ _ Hx) as (i1 & t' & Hj & Hh). unfold wants in Hh.
        destruct (tcode t') as [ | | | | | | | | | | | | | | |q' m' k'| ] eqn:E'; try lia. destruct m'; [lia|].
        destruct (ann t') eqn:Ea; [|lia]. destruct (decide (q' = q)) as [->|]; [|lia].
        destruct (Hall _ _ Hj) as [[v Ev]|[Hw'|Ev]]; [congruence| |congruence].
        unfold waits in Hw'. rewrite E', Ea in Hw'. auto. }
      unfold waits in Hw. rewrite E in Hw. destruct m; [tauto|]. destruct (ann t); tauto. }
    destruct Hold as (i1 & t' & h & m' & Hj & Hhj & Wt & Hh).
    assert (Hr : ~ returned t') by (eapply unlocked_ret; eauto). destruct (unreturned_runs _ _ Hj Hr) as [cmd' R'].
    destruct (get_h _ _ _ _ _ _ G Ht) as (h0 & Hh0 & _). destruct (H _ _ _ _ R Ht Hh0) as [Hl _]. rewrite E in Hl. cbn in Hl. destruct Hl as [(key & Hk & <-) _].
    destruct (H _ _ _ _ R' Hj Hhj) as [Hl' Hs']. destruct (Hs' _ (held_hlocks _ _ _ Hh)) as (key' & Hk' & Ek).
    eapply blocked_behind; [exact R|exact R'|exact Hk|exact Hk'|congruence|exact Hp|].
    destruct (Hall _ _ Hj) as [?|[Hw|Hx]]; [contradiction| |eapply blocked_hang; eauto].
    destruct (holder_waits_above _ _ _ _ c _ _ Wt Hh Hw) as (q' & m2 & k2 & E' & Hq). eapply IH; [exact R'|exact Hj|exact E'|lia|lia].
Qed.
Lemma blocked_any i cmd t : held_well x j c -> runs x j i cmd -> ths c !! i = Some t -> ~ returned t -> blocked 0 cmd.
Proof.
  intros W R Ht Hr. destruct (Hall _ _ Ht) as [?|[Hw|Hx]]; [contradiction| |eapply blocked_hang; eauto].
  pose proof Hw as Hw0. unfold waits in Hw. destruct (tcode t) as [ | | | | | | | | | | | | | | |q m k| ] eqn:E; try tauto. eapply (wait_chain W (S (N.to_nat (ConcProofs.top (ths c)))) i t cmd q m k 0%N); eauto; lia.
Qed.
End Chain.

(** ** The server at rest *)
Lemma server_rest (T : Z -> Prop) now sl ds css x : T now -> (sl < length ds)%nat -> rtc (nstep T) (serve sl ds css) x -> (forall y, ~ nadvance T x y) ->
  (forall j c t, cores x !! j = Some c -> t ∈ ths c -> tcode t <> Crash) ->
  forall i s, sess x !! i = Some s -> (busy s = None /\ todo s = []) \/ exists cmd j c, busy s = Some (cmd, j) /\ cores x !! j = Some c /\ blocked x j c 0 cmd.
Proof.
  intros Hnow Hsl R Hn Hcr i s Hi. pose proof (gi_rtc T _ _ R (gi_serve sl ds css Hsl)) as HG. pose proof (ni_rtc T _ _ R (gi_serve sl ds css Hsl) (ni_serve sl ds css)) as HN. clear R. pose proof HG as [G1 G2 G3 G4].
  destruct x as [sl' cs ss]. cbn [cores sess sel] in *. destruct s as [h b rest]. destruct b as [[cmd j]|].
  - right. pose proof (G3 i _ cmd j Hi eq_refl) as Hj. apply lookup_lt_is_Some_2 in Hj as [c Hc]. destruct (G1 j c Hc) as [[hs G] Hl].
    destruct (lookup_lt_is_Some_2 (ths c) i) as [t Ht]; [rewrite Hl; eapply lookup_lt_Some; eauto|].
    exists cmd, j, c. split; [reflexivity|]. split; [exact Hc|].
    assert (Hall : forall i t, ths c !! i = Some t -> returned t \/ waits c t \/ tcode t = Hang).
    { intros i' t' Ht'. destruct (returned_dec t') as [?|Hr]; auto. destruct (waits_dec c t') as [|Hw]; auto. right. right.
      destruct (tcode t') eqn:Et; auto; exfalso; try (apply Hr; eexists; eassumption); try (eapply Hcr; [exact Hc|eapply elem_of_list_lookup_2; exact Ht'|exact Et]);
        (destruct (can_move _ _ T now c _ i' t' G Hnow Ht' Hr Hw) as (c' & Hs & Hne); [rewrite Et; discriminate..|]);
        (apply (Hn (mkServer sl' (<[j := c']> cs) ss)); split; [eapply N_run; eauto|]; right; cbn; intros E;
           apply (f_equal (fun l => l !! j)) in E; rewrite !list_lookup_fmap, list_lookup_insert in E by (eapply lookup_lt_Some; eauto); rewrite Hc in E; cbn in E; injection E as E; rewrite E in Hne; congruence). }
    assert (HR : runs (mkServer sl' cs ss) j i cmd) by (eexists; split; [exact Hi|reflexivity]).
    eapply (blocked_any (mkServer sl' cs ss) j c HG Hc Hall); [exact (HN j c Hc)|exact HR|exact Ht|].
    intros [r Er]. apply (Hn (mkServer sl' cs (<[i := mkConn (h ++ [(cmd, r)]) None rest]> ss))).
    destruct (get_h _ _ _ _ _ _ G Ht) as (h0 & _ & _ & _ & Ha). destruct t as [p b]. cbn in *. subst p.
    assert (b = false) as -> by (destruct b; auto; destruct (Ha eq_refl) as (? & ? & ?); discriminate).
    split; [eapply N_reply; eauto|]. left. cbn. eapply insert_differs; [exact Hi|discriminate].
  - left. split; auto. cbn. destruct rest as [|cmd rest]; auto. exfalso. destruct (is_select cmd) eqn:Es.
    + eapply Hn. split; [eapply N_select; eauto|]. left. cbn. eapply insert_differs; [exact Hi|]. intros E. injection E as E. apply (f_equal length) in E. rewrite app_length in E. cbn in E. lia.
    + apply lookup_lt_is_Some_2 in G4 as [c Hc]. eapply Hn. split; [eapply N_start; eauto|]. left. cbn. eapply insert_differs; [exact Hi|discriminate].
Qed.
(** ** The process at rest *)
Lemma busy_performs x j i cmd : all_peers x -> runs (net (sofar x) x) j i cmd -> performs x j i cmd.
Proof.
  intros A (s & Hs & Hb). destruct (conn_at _ _ _ _ Hs) as (p & Hp & ->). rewrite (conn_sofar _ _ _ Hp (A _ _ Hp)) in Hb. cbn in Hb. unfold busy_of in Hb. exists p. split; auto.
  destruct (runs_on p) as [j'|]; [|discriminate]. destruct (hnd (lnk p)); try discriminate. injection Hb as -> ->. auto.
Qed.
Lemma blocked_held x j c p cmd : all_peers x -> wcores x !! j = Some c -> blocked (net (sofar x) x) j c p cmd -> held_up x j p cmd.
Proof.
  intros A Hc H. induction H as [p i cmd t Hm R Ht E|p i cmd key i' cmd' key' R R' K K' Ek Hp H IH].
  - apply held_itself. split; auto. exists i. split; [apply busy_performs; auto|]. exists c, t. auto.
  - eapply held_behind; [apply busy_performs; eauto|apply busy_performs; eauto|eauto..].
Qed.
Lemma peer_rest (T : Z -> Prop) now sl ds n x : T now -> (sl < length ds)%nat -> rtc (happens T) (boot sl ds n) x -> now_is x = Running -> (forall y, ~ nadvance T (net (sofar x) x) y) ->
  (forall j c t, wcores x !! j = Some c -> t ∈ ths c -> tcode t <> Crash) ->
  forall i p cmd, peers x !! i = Some p -> hnd (lnk p) = HExec cmd -> exists j, performs x j i cmd /\ held_up x j 0 cmd.
Proof.
  intros Hnow Hsl R Hrun HN Hcr i p cmd Hi Hh. destruct (net_reached _ _ _ _ _ R) as [A RN].
  destruct (server_rest T now sl ds _ _ Hnow Hsl RN HN Hcr i _ (net_lookup _ _ _ _ Hi)) as [[Hb Ht]|(cmd' & j & c & Hb & Hc & B)].
  - exfalso. rewrite (conn_sofar _ _ _ Hi (A _ _ Hi)) in Hb, Ht. unfold busy_of in Hb. cbn in *. rewrite Hh in *. destruct (runs_on p); discriminate.
  - assert (Hp : performs x j i cmd') by (apply busy_performs; auto; eexists; split; [apply net_lookup; exact Hi|exact Hb]).
    assert (cmd' = cmd) as ->. { destruct Hp as (p' & Hp' & E & _). congruence. }
    exists j. split; auto. eapply blocked_held; eauto.
Qed.
Lemma world_rest_each (T : Z -> Prop) now sl ds n x : T now -> (sl < length ds)%nat -> rtc (happens T) (boot sl ds n) x -> now_is x = Running -> (forall y, ~ wadvance T x y) ->
  forall i p, peers x !! i = Some p -> stg p <> Away -> stg p = Served /\ (rests (lnk p) \/ exists cmd j, performs x j i cmd /\ held_up x j 0 cmd).
Proof.
  intros Hnow Hsl R Hrun Hn i p Hi Hst. destruct (net_reached _ _ _ _ _ R) as [A RN]. pose proof (net_rests _ _ _ _ _ R Hrun Hn) as HN.
  assert (Hcr : forall j c t, wcores x !! j = Some c -> t ∈ ths c -> tcode t <> Crash).
  { intros j c t Hj Ht E. apply elem_of_list_lookup in Ht as [k Ht]. destruct t as [q b]. cbn in E. subst q. destruct x as [xs xc xp xg xf]. cbn in *. subst xf. eapply Hn. split; [eapply W_panic; eauto|]. right. right. cbn. discriminate. }
  assert (Hsv : stg p = Served).
  { assert (Hno : forall j q, peers x !! j = Some q -> stg q <> Held).
    { intros j [st l o w] Hq Hh. cbn in Hh. subst st. destruct x as [xs xc xp xg xf]. cbn in *. subst xf. eapply Hn. split; [eapply W_serve; eauto|]. left. cbn. eapply insert_differs; [eauto|discriminate]. }
    destruct p as [st l o w]. destruct st; cbn in *; auto; [contradiction| |destruct (Hno _ _ Hi); reflexivity].
    exfalso. destruct x as [xs xc xp xg xf]. cbn in *. subst xf. eapply Hn. split; [eapply W_accept; eauto|]. left. cbn. eapply insert_differs; [eauto|discriminate]. }
  split; auto. destruct (hnd (lnk p)) as [|cmd|e|e] eqn:Eh.
  2:{ right. destruct (peer_rest T now sl ds n x Hnow Hsl R Hrun HN Hcr i p cmd Hi Eh) as (j & H1 & H2). eauto. }
  all: left; destruct p as [st l o w]; cbn in Hsv; subst st; cbn in Eh |- *; refine (link_rests _ _ _ _ _ _ Hn Hrun Hi (A _ _ Hi) _); intros cmd Hx; rewrite Eh in Hx; discriminate.
Qed.
Theorem stall_served (T : Z -> Prop) now sl ds n x : T now -> (sl < length ds)%nat -> rtc (happens T) (boot sl ds n) x -> now_is x = Running -> (forall y, ~ wadvance T x y) ->
  forall i p, peers x !! i = Some p -> stg p <> Away -> stg p = Served /\ replied (log (lnk p)) (written p) /\
    ((exists cmd j, performs x j i cmd /\ held_up x j 0 cmd) \/
     forall ks t, reads_as (concat (given (lnk p))) ks t -> map fst (log (lnk p)) = commands (values None ks) /\
      (hnd (lnk p) = HIdle /\ ended (lnk p) = None /\ t <> Fatal /\ (forall e, EvErr e ∉ values None ks) \/ exists e, hnd (lnk p) = HGone e /\ (ended (lnk p) <> None \/ EvErr e ∈ values None ks))).
Proof.
  intros Hnow Hsl R Hrun Hn i p Hi Hst. destruct (net_reached _ _ _ _ _ R) as [A _]. pose proof (A _ _ Hi) as I. destruct (world_rest_each T now sl ds n x Hnow Hsl R Hrun Hn i p Hi Hst) as [H1 [H2|H2]]; (split; [auto|]); (split; [exact (pv_wire _ I)|]); auto.
  right. intros ks t Hs. destruct (any_prompt (lnk p) ks t (pv_reach _ I) Hs H2) as [E1 E2]. auto.
Qed.
(** The same with clients that may be slow to take their replies. *)
Ltac either := match goal with Hn : forall y, ~ fadvance _ _ y |- _ => eapply Hn; split; [apply F_go|cbn [fst snd]] end.
Theorem stall_flow (T : Z -> Prop) now sl ds n x os : T now -> (sl < length ds)%nat -> rtc (flows T) (fboot sl ds n) (x, os) -> now_is x = Running -> (forall y, ~ fadvance T (x, os) y) ->
  forall i p o, peers x !! i = Some p -> os !! i = Some o -> stg p <> Away -> stg p = Served /\
    ((exists cmd j, performs x j i cmd /\ held_up x j 0 cmd) \/ waiting o <> [] /\ broken o = false \/
     forall cs, sends cs (concat (given (lnk p))) -> map fst (log (lnk p)) = cs /\ (broken o = false -> replied (log (lnk p)) (arrived o)) /\
       match ended (lnk p) with None => hnd (lnk p) = HIdle | Some _ => exists e, hnd (lnk p) = HGone e end).
Proof.
  intros Hnow Hsl R Hrun Hn i p o Hi Ho Hs. pose proof (flows_worlds _ _ _ R) as R'. cbn [fst fboot] in R'. destruct (net_reached _ _ _ _ _ R') as [A RN]. pose proof (quiet_net _ _ _ _ _ _ R Hrun Hn) as HN. destruct (flow_inv _ _ _ _ _ R) as [_ [L O]].
  assert (Hcr : forall j c t, wcores x !! j = Some c -> t ∈ ths c -> tcode t <> Crash).
  { intros j c t Hj Ht E. apply elem_of_list_lookup in Ht as [k Ht]. destruct t as [q b]. cbn in E. subst q. destruct x as [xs xc xp xg xf]. cbn in *. subst xf.
    either; [eapply W_panic; eauto|eapply W_panic; eauto|]. right. right. cbn. discriminate. }
  assert (Hst : forall i p, peers x !! i = Some p -> stg p <> Served -> writing os i = false).
  { intros i0 p0 Hp Hs0. destruct (writing os i0) eqn:E; auto. unfold writing in E. destruct (os !! i0) as [o0|] eqn:Eo; [|discriminate].
    destruct (O _ _ _ Hp Eo) as [_ _ O3]. destruct o0 as [[|c w] a b]; try discriminate. destruct (O3 ltac:(discriminate)) as (S1 & _). contradiction. }
  assert (Hsv : stg p = Served).
  { assert (Hno : forall j q, peers x !! j = Some q -> stg q <> Held).
    { intros j [st l o' w] Hq Hh. cbn in Hh. subst st. pose proof (Hst _ _ Hq ltac:(discriminate)) as Hw. destruct x as [xs xc xp xg xf]. cbn in *. subst xf.
      either; [eapply W_serve; eauto|rewrite un_ins by auto; eapply W_serve; apply (un_look os (mkW xs xc xp xg Running)); eauto|]. left. cbn. eapply insert_differs; [eauto|discriminate]. }
    destruct p as [st l o' w]. pose proof (Hst _ _ Hi) as Hw. destruct st; cbn in *; auto; [contradiction| |destruct (Hno _ _ Hi); reflexivity].
    specialize (Hw ltac:(discriminate)). exfalso. destruct x as [xs xc xp xg xf]. cbn in *. subst xf.
    either; [eapply W_accept; eauto|rewrite un_ins by auto; eapply W_accept; [apply (un_look os (mkW xs xc xp xg Running)); eauto|]|].
    - intros j q Hq. cbn in Hq. rewrite list_lookup_imap in Hq. destruct (xp !! j) as [q0|] eqn:Eq; [|discriminate]. cbn in Hq. injection Hq as <-. pose proof (Hno _ _ Eq). destruct (writing os j); auto.
    - left. cbn. eapply insert_differs; [eauto|discriminate]. }
  split; auto. assert (Hx : (exists cmd, hnd (lnk p) = HExec cmd) \/ forall cmd, hnd (lnk p) <> HExec cmd) by (destruct (hnd (lnk p)); eauto; right; discriminate).
  destruct Hx as [[cmd Eh]|Hx]; [left; destruct (peer_rest T now sl ds n x Hnow Hsl R' Hrun HN Hcr i p cmd Hi Eh) as (j & H1 & H2); eauto|right].
  destruct (waiting o) as [|c0 w0] eqn:Ew; [right|left; split; [discriminate|destruct (O _ _ _ Hi Ho) as [_ O2 _]; destruct (broken o); auto; destruct (O2 eq_refl); congruence]].
  intros cs Hc. pose proof (A _ _ Hi) as I.
  assert (Hw : writing os i = false) by (unfold writing; rewrite Ho; destruct o as [w a b]; cbn in Ew; subst w; reflexivity).
  assert (Hr : rests (lnk p)) by (destruct p as [st l o' w]; cbn in Hsv; subst st; exact (quiet_link _ _ _ _ _ _ _ Hn Hrun Hi I Hw Hx)).
  destruct (pipe_prompt cs (lnk p) (pv_reach _ I) Hc Hr) as [E1 E2]. split; [exact E1|]. split; [|exact E2].
  intros Hb. destruct (O _ _ _ Hi Ho) as [O1 _ _]. specialize (O1 Hb). rewrite Ew, app_nil_r in O1. rewrite <- O1. exact (pv_wire _ I).
Qed.
Lemma held_up_loops x j p cmd : held_up x j p cmd -> exists cmd' i, may_loop cmd' /\ looping x j i cmd'.
Proof. induction 1 as [p cmd (H & i & R)|]; eauto. Qed.
Lemma held_up_above x j p cmd : held_up x j p cmd -> forall (L : N -> Prop), (forall i cmd key, performs x j i cmd -> may_loop cmd -> touched cmd key -> ~ L (lockpos key)) ->
  (forall i cmd k k', performs x j i cmd -> touched cmd k -> touched cmd k' -> L (lockpos k) -> (lockpos k < lockpos k')%N -> L (lockpos k')) ->
  ~ may_loop cmd \/ (exists key, touched cmd key /\ L (lockpos key)) -> ~ (forall key, touched cmd key -> (p <= lockpos key)%N -> L (lockpos key)).
Proof.
  intros H L HL HC. induction H as [p cmd (Hm & i & R & _)|p i cmd key i' cmd' key' R R' K K' Ek Hp H IH]; intros Hc Ha.
  - destruct Hc as [?|(key & K & Lk)]; [auto|]. eapply HL; eauto.
  - pose proof (Ha _ K Hp) as Lk. apply IH; [right; exists key'; rewrite <- Ek; auto|]. intros k Hk Hle. eapply (HC i' cmd' key' k); eauto; rewrite <- Ek; [auto|lia].
Qed.
Theorem stall_above (T : Z -> Prop) (L : N -> Prop) now sl ds n x i p cmd j : T now -> (sl < length ds)%nat -> rtc (happens T) (boot sl ds n) x -> now_is x = Running -> (forall y, ~ wadvance T x y) ->
  (forall i cmd key, performs x j i cmd -> may_loop cmd -> touched cmd key -> ~ L (lockpos key)) ->
  (forall i cmd k k', performs x j i cmd -> touched cmd k -> touched cmd k' -> L (lockpos k) -> (lockpos k < lockpos k')%N -> L (lockpos k')) ->
  peers x !! i = Some p -> hnd (lnk p) = HExec cmd -> runs_on p = Some j -> ~ may_loop cmd -> ~ (forall key, touched cmd key -> L (lockpos key)).
Proof.
  intros Hnow Hsl R Hrun Hn HL HC Hi Hh Hr Hm Ha.
  assert (Ha' : stg p <> Away). { intros E. rewrite (away_opened _ _ _ _ _ R _ _ Hi E) in Hh. discriminate. }
  destruct (world_rest_each T now sl ds n x Hnow Hsl R Hrun Hn i p Hi Ha') as [_ [[_ H]|(cmd' & j' & (p' & Hp & E1 & E2) & H)]].
  - destruct (net_reached _ _ _ _ _ R) as [A _]. destruct (A _ _ Hi) as [I1 I2 _ _ _].
    destruct (lnk p) as [g u f s pp h lg dd] eqn:El. cbn in Hh. subst h. cbn in I2. subst dd. eapply H. apply L_panic.
  - assert (p' = p) as -> by congruence. assert (cmd' = cmd) as -> by congruence. assert (j' = j) as -> by congruence. eapply held_up_above; eauto.
Qed.
(** A command in an endless loop stays in it. *)
Lemma hang_cstep {A} T (c c' : conf A) i t : cstep T c c' -> ths c !! i = Some t -> tcode t = Hang -> exists t', ths c' !! i = Some t' /\ tcode t' = Hang.
Proof.
  intros St Ht E. destruct St as [d L ts k p d' p' Hi Hp|d L ts k pos k0 n Hi HL|d L ts k pos k0 n Hi HL|d L ts k pos k0 Hi HL|d L ts k pos k0 n b Hi HL|d L ts k pos k0 n b Hi HL]; cbn [ths] in *;
    (destruct (decide (k = i)) as [->|N]; [|rewrite list_lookup_insert_ne by auto; eauto]); rewrite Hi in Ht; injection Ht as <-; cbn in E; try discriminate E. subst p. inversion Hp; subst.
  rewrite list_lookup_insert by (eapply lookup_lt_Some; eauto). eauto.
Qed.
Lemma looping_happens T x y j i cmd : happens T x y -> looping x j i cmd -> looping y j i cmd.
Proof.
  intros H [(p & Hp & Hh & Hr) (c & t & Hc & Ht & E)]. unfold looping, performs.
  assert (K : forall (ps : list peer) i' p0 p', ps !! i' = Some p0 -> ps !! i = Some p -> (i' = i -> p0 = p -> hnd (lnk p') = HExec cmd /\ runs_on p' = Some j) -> exists q, <[i' := p']> ps !! i = Some q /\ hnd (lnk q) = HExec cmd /\ runs_on q = Some j).
  { intros ps i' p0 p' H1 H2 H3. destruct (decide (i' = i)) as [->|N]; [|rewrite list_lookup_insert_ne by auto; eauto]. rewrite list_lookup_insert by (eapply lookup_lt_Some; eauto). exists p'. split; auto. apply H3; congruence. }
  destruct H as [H|H]; destruct H; cbn [peers wcores] in *; (split; [try (eapply K; [eassumption|eassumption|]; intros Ei Ep; subst p; cbn in *; auto; try discriminate Hr)|]); eauto.
  - split; auto. destruct H1; cbn in *; auto.
  - split; auto. destruct H0; cbn in *; try discriminate Hh; auto. apply (f_equal length) in H1. rewrite app_length in H1. cbn in H1. lia.
  - destruct (decide (sl = j)) as [->|N]; [|rewrite list_lookup_insert_ne by auto; eauto]. rewrite list_lookup_insert by (eapply lookup_lt_Some; eauto). assert (c0 = c) as -> by congruence. eexists _, t. split; [reflexivity|]. split; auto. cbn.
    rewrite list_lookup_insert_ne; auto. intros <-. assert (Ep : p = mkPeer Served l None w) by congruence. subst p. discriminate Hr.
  - destruct (decide (j0 = j)) as [->|N]; [|rewrite list_lookup_insert_ne by auto; eauto]. rewrite list_lookup_insert by (eapply lookup_lt_Some; eauto). assert (c0 = c) as -> by congruence.
    destruct (hang_cstep _ _ _ _ _ H0 Ht E) as (t' & H1 & H2). exists c', t'. auto.
  - exfalso. subst i0. injection Hr as ->. assert (c0 = c) as -> by congruence. rewrite Ht in H2. injection H2 as ->. discriminate E.
Qed.
Theorem looping_for_ever T x y j i cmd : rtc (happens T) x y -> looping x j i cmd -> looping y j i cmd.
Proof. induction 1; auto. intros. apply IHrtc. eapply looping_happens; eauto. Qed.
End WithParams.
