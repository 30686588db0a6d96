(** Goroutines that stand still: proofs. *)
From Verif Require Export SpecMute StallProofs.

Section WithParams.
Context {P : Setup}.

Section Chain.
Context (XE : nat -> Prop) (x : world) (A : all_peers x) (j : nat) (c : conf rdata) (HG : GI (net (sofar x) x)) (HC : wcores x !! j = Some c).
Context (Hall : forall i t, ths c !! i = Some t -> returned t \/ waits c t \/ tcode t = Hang \/ XE i).
Notation R i cmd := (runs (net (sofar x) x) j i cmd).
Lemma behind_stop p i cmd : R i cmd -> XE i -> behind XE x j p i.
Proof. intros H Hx. eapply behind_itself; [apply busy_performs; eauto|auto]. Qed.
Lemma behind_hang p i cmd t : held_well (net (sofar x) x) j c -> R i cmd -> ths c !! i = Some t -> tcode t = Hang -> behind XE x j p i.
Proof.
  intros [_ (fl & S & HS)] HR Ht E. destruct (may_loop_dec cmd) as [H|N].
  - pose proof (busy_performs _ _ _ _ A HR) as Hp. eapply behind_itself; [exact Hp|]. right. split; auto. split; auto. exists c, t. auto.
  - pose proof (HS _ _ HR N) as Hf. destruct (all_safe_at _ _ _ _ S Ht) as [_ H]. specialize (H E). congruence.
Qed.
Lemma behind_wait : held_well (net (sofar x) x) j c -> forall n i t cmd q m k p, R i cmd -> ths c !! i = Some t -> tcode t = Acq q m k -> (p <= q)%N -> (ConcProofs.top (ths c) < q + N.of_nat n)%N -> behind XE x j p i.
Proof.
  intros W. pose proof W as [(hs & G & H) _]. induction n as [|n IH]; intros i t cmd q m k p HR Ht E Hp Hn.
  - pose proof (top_ge _ _ _ Ht) as H1. unfold wpos in H1. rewrite E in H1. lia.
  - destruct (Hall _ _ Ht) as [[v E']|[Hw|[E'|Hx]]]; [congruence| |congruence|eapply behind_stop; eauto].
    destruct (get_h _ _ _ _ _ _ G Ht) as (h0 & Hh0 & _). destruct (H _ _ _ _ HR Ht Hh0) as [Hl _]. rewrite E in Hl. cbn in Hl. destruct Hl as [(key & Hk & <-) _].
    set (q := lockpos key) in *.
    assert (Hold : (exists j t' h m', ths c !! j = Some t' /\ hs !! j = Some h /\ wft true true h t' /\ (0 < held m' q h)%nat) \/
                   exists i1 t' k', ths c !! i1 = Some t' /\ tcode t' = Acq q MW k' /\ XE i1).
    { assert (HR' : rd (lk c q) <> 0%nat -> exists j t' h m', ths c !! j = Some t' /\ hs !! j = Some h /\ wft true true h t' /\ (0 < held m' q h)%nat).
      { intros Hr. destruct (held_by _ _ _ _ MR q G) as (i1 & t' & h & Hx); [rewrite <- (g_rd _ _ _ _ G); lia|]. exists i1, t', h, MR. auto. }
      assert (HW : wr (lk c q) = true -> exists j t' h m', ths c !! j = Some t' /\ hs !! j = Some h /\ wft true true h t' /\ (0 < held m' q h)%nat).
      { intros Hr. destruct (held_by _ _ _ _ MW q G) as (i1 & t' & h & Hx); [rewrite <- (g_wr _ _ _ _ G), Hr; cbn; lia|]. exists i1, t', h, MW. auto. }
      assert (HP : pend (lk c q) = true -> (exists j t' h m', ths c !! j = Some t' /\ hs !! j = Some h /\ wft true true h t' /\ (0 < held m' q h)%nat) \/
                   exists i1 t' k', ths c !! i1 = Some t' /\ tcode t' = Acq q MW k' /\ XE i1).
      { intros Hr. assert (0 < ConcProofs.total (wants q) (ths c))%nat as Hx by (rewrite <- (g_pend _ _ _ _ G), Hr; cbn; lia).
        destruct (total_pos _ _ Hx) as (i1 & t' & Hj & Hh). unfold wants in Hh.
        destruct (tcode t') as [ | | | | | | | | | | | | | | |q' m' k'| ] eqn:E'; try lia. destruct m'; [lia|].
        destruct (ann t') eqn:Ea; [|lia]. destruct (decide (q' = q)) as [->|]; [|lia].
        destruct (Hall _ _ Hj) as [[v Ev]|[Hw'|[Ev|Hx']]]; [congruence| |congruence|right; exists i1, t', k'; auto].
        unfold waits in Hw'. rewrite E', Ea in Hw'. auto. }
      unfold waits in Hw. rewrite E in Hw. destruct m; [tauto|]. destruct (ann t); tauto. }
    destruct Hold as [(i1 & t' & h & m' & Hj & Hhj & Wt & Hh)|(i1 & t' & k' & Hj & E1 & Hx)].
    + assert (Hr : ~ returned t') by (eapply unlocked_ret; eauto). destruct (unreturned_runs (net (sofar x) x) j c HG HC _ _ Hj Hr) as [cmd' R'].
      destruct (H _ _ _ _ R' Hj Hhj) as [Hl' Hs']. destruct (Hs' _ (held_hlocks _ _ _ Hh)) as (key' & Hk' & Ek).
      eapply behind_next; [apply busy_performs; [exact A|exact HR]|apply busy_performs; [exact A|exact R']|exact Hk|exact Hk'|exact (eq_sym Ek)|exact Hp|].
      destruct (Hall _ _ Hj) as [?|[Hw'|[Hx|Hx]]]; [contradiction| |eapply behind_hang; eauto|eapply behind_stop; eauto].
      destruct (holder_waits_above _ _ _ _ c _ _ Wt Hh Hw') as (q' & m2 & k2 & E' & Hq). eapply IH; [exact R'|exact Hj|exact E'|lia|lia].
    + assert (Hr : ~ returned t') by (intros [v Ev]; congruence). destruct (unreturned_runs (net (sofar x) x) j c HG HC _ _ Hj Hr) as [cmd' R'].
      destruct (get_h _ _ _ _ _ _ G Hj) as (h1 & Hh1 & _). destruct (H _ _ _ _ R' Hj Hh1) as [Hl _]. rewrite E1 in Hl. cbn in Hl. destruct Hl as [(key' & Hk' & Ek) _].
      eapply behind_next; [apply busy_performs; [exact A|exact HR]|apply busy_performs; [exact A|exact R']|exact Hk|exact Hk'|exact (eq_sym Ek)|exact Hp|eapply behind_stop; eauto].
Qed.
Lemma behind_any i cmd t : held_well (net (sofar x) x) j c -> R i cmd -> ths c !! i = Some t -> ~ returned t -> behind XE x j 0 i.
Proof.
  intros W HR Ht Hr. destruct (Hall _ _ Ht) as [?|[Hw|[Hx|Hx]]]; [contradiction| |eapply behind_hang; eauto|eapply behind_stop; eauto].
  pose proof Hw as Hw0. unfold waits in Hw. destruct (tcode t) as [ | | | | | | | | | | | | | | |q m k| ] eqn:E; try tauto. eapply (behind_wait W (S (N.to_nat (ConcProofs.top (ths c)))) i t cmd q m k 0%N); eauto; lia.
Qed.
End Chain.

Lemma only_one T (c c' : conf rdata) hs i i' : good true true c hs -> cstep T c c' -> ths c' !! i <> ths c !! i -> ths c' !! i' <> ths c !! i' -> i' = i.
Proof.
  intros G St H1 H2. destruct (good_step_at _ _ _ _ G St) as (_ & k & p & p' & b & b' & _ & _ & Hc & _). rewrite Hc in *.
  destruct (decide (k = i)) as [->|N1]; [|rewrite list_lookup_insert_ne in H1 by auto; congruence]. destruct (decide (i = i')) as [->|N2]; auto. rewrite list_lookup_insert_ne in H2 by auto. congruence.
Qed.
(** ** The process at rest but for those that stand still *)
Lemma still_panic XP XE T sl cs ps sg : rests_but XP XE T (mkW sl cs ps sg Running) -> wstep T (mkW sl cs ps sg Running) (mkW sl cs ps sg Panicked) -> False.
Proof. intros Hs St. destruct (Hs _ St) as [H _]. apply H. reflexivity. Qed.
Lemma still_peer XP XE T i p p' sl cs ps sg sl' cs' : rests_but XP XE T (mkW sl cs ps sg Running) -> ps !! i = Some p -> p' <> p -> wstep T (mkW sl cs ps sg Running) (mkW sl' cs' (<[i := p']> ps) sg Running) -> XP i.
Proof. intros Hs Hi Hn St. destruct (Hs _ St) as [_ [H _]]. apply H. cbn. rewrite list_lookup_insert by (eapply lookup_lt_Some; eauto). congruence. Qed.
Lemma still_links XP XE T x i l o w : rests_but XP XE T x -> ~ XP i -> now_is x = Running -> peers x !! i = Some (mkPeer Served l o w) -> pinv (mkPeer Served l o w) ->
  (forall cmd, hnd l <> HExec cmd) -> rests l.
Proof.
  intros Hs HX Hrun Hi [I1 I2 I3 I4 I5] Hx. split; [exact I2|]. intros l' St. cbn in *. destruct x as [xs xc xp xg xf]. cbn in *. subst xf.
  pose proof (lstep_differs _ _ I1 St) as Hd.
  assert (Hw : log l' = log l -> dead l' = false -> False).
  { intros H1 H2. apply HX. eapply still_peer; [exact Hs|exact Hi| |eapply W_link; eauto]. congruence. }
  inversion St; subst; cbn in *; auto.
  - eapply still_panic; [exact Hs|]. eapply W_parser_panic; eauto.
  - eapply still_panic; [exact Hs|]. eapply W_value_panic; eauto.
  - eapply Hx; reflexivity.
  - eapply Hx; reflexivity.
Qed.
Lemma still_all XP XE (T : Z -> Prop) now x j c hs : T now -> rests_but XP XE T x -> now_is x = Running -> wcores x !! j = Some c -> good true true c hs ->
  forall i t, ths c !! i = Some t -> returned t \/ waits c t \/ tcode t = Hang \/ XE i.
Proof.
  intros Hnow Hs Hrun Hc G i t Ht. destruct x as [xs xc xp xg xf]. cbn in *. subst xf. destruct (returned_dec t) as [?|Hr]; auto. destruct (waits_dec c t) as [|Hw]; auto. right. right.
  assert (Hcr : tcode t <> Crash). { intros E. destruct t as [q b]. cbn in E. subst q. eapply still_panic; [exact Hs|]. eapply W_panic; eauto. }
  assert (Hh : tcode t = Hang \/ tcode t <> Hang) by (destruct (tcode t); auto; right; discriminate). destruct Hh as [?|Hh]; auto. right.
  destruct (can_move _ _ T now c _ i t G Hnow Ht Hr Hw Hcr Hh) as (c' & St & Hne). destruct (Hs _ (W_run T xs xc xp xg j c c' Hc St)) as (_ & _ & H).
  eapply (H eq_refl j c c' i Hc); [|exact Hne]. cbn. rewrite list_lookup_insert by (eapply lookup_lt_Some; eauto). reflexivity.
Qed.
Lemma still_exec XP XE (T : Z -> Prop) now sl ds n x : T now -> (sl < length ds)%nat -> rtc (happens T) (boot sl ds n) x -> now_is x = Running -> rests_but XP XE T x ->
  forall i p cmd, peers x !! i = Some p -> ~ XP i -> hnd (lnk p) = HExec cmd -> exists j, performs x j i cmd /\ behind XE x j 0 i.
Proof.
  intros Hnow Hsl R Hrun Hs i p cmd Hi HX Hh. destruct (net_reached _ _ _ _ _ R) as [A RN].
  pose proof (gi_rtc T _ _ RN (gi_serve sl ds _ Hsl)) as HG. pose proof (ni_rtc T _ _ RN (gi_serve sl ds _ Hsl) (ni_serve sl ds _)) as HN. pose proof HG as [G1 G2 G3 G4].
  pose proof (A _ _ Hi) as [_ I2 I3 _ I5]. destruct p as [st l o w]. cbn in *. destruct I5 as [->|[E _]]; [|congruence]. destruct o as [j|].
  - pose proof (net_lookup (sofar x) _ _ _ Hi) as Hn. assert (HR : runs (net (sofar x) x) j i cmd).
    { eexists. split; [exact Hn|]. cbn. unfold busy_of. cbn. rewrite Hh. reflexivity. }
    destruct HR as (s & Hs' & Hb). pose proof (G3 i s cmd j Hs' Hb) as Hj. apply lookup_lt_is_Some_2 in Hj as [c Hc]. cbn in Hc. destruct (G1 j c Hc) as [[hs G] Hl].
    destruct (lookup_lt_is_Some_2 (ths c) i) as [t Ht]; [rewrite Hl; eapply lookup_lt_Some; eauto|].
    exists j. split; [eexists; split; [exact Hi|auto]|].
    eapply (behind_any XE x A j c HG Hc); [eapply still_all; eauto|exact (HN j c Hc)|exists s; eauto|exact Ht|].
    intros [r Er]. destruct (get_h _ _ _ _ _ _ G Ht) as (h0 & _ & _ & _ & Ha). destruct t as [q b]. cbn in *. subst q.
    assert (b = false) as -> by (destruct b; auto; destruct (Ha eq_refl) as (? & ? & ?); discriminate).
    destruct x as [xs xc xp xg xf]. cbn in *. subst xf. destruct (reply_bytes r) as [bs|] eqn:Eb.
    + apply HX. eapply still_peer; [exact Hs|exact Hi| |eapply W_reply; eauto]. discriminate.
    + eapply still_panic; [exact Hs|]. eapply W_reply_panic; eauto.
  - exfalso. destruct x as [xs xc xp xg xf]. cbn in *. subst xf. destruct (is_select cmd) eqn:Es.
    + destruct (select_encodes (mkMgr xs (map cdb xc)) cmd) as [bs Hbs]. apply HX. eapply still_peer; [exact Hs|exact Hi| |eapply W_select; eauto].
      intros E. injection E as E _. apply (f_equal hnd) in E. cbn in E. congruence.
    + destruct cmd as [|a cmd]; [eapply still_panic; [exact Hs|]; eapply W_empty_panic; eauto|].
      apply lookup_lt_is_Some_2 in G4 as [c Hc]. apply HX. eapply still_peer; [exact Hs|exact Hi| |eapply W_start; eauto; discriminate]. discriminate.
Qed.
Theorem mute_served (XP XE : nat -> Prop) (T : Z -> Prop) now sl ds n x : T now -> (sl < length ds)%nat -> rtc (happens T) (boot sl ds n) x -> now_is x = Running -> rests_but XP XE T x ->
  forall i p, peers x !! i = Some p -> stg p = Served -> ~ XP i -> replied (log (lnk p)) (written p) /\
    ((exists cmd j, performs x j i cmd /\ behind XE x j 0 i) \/
     forall ks t, reads_as (concat (given (lnk p))) ks t -> map fst (log (lnk p)) = commands (values None ks) /\
      (hnd (lnk p) = HIdle /\ ended (lnk p) = None /\ t <> Fatal /\ (forall e, EvErr e ∉ values None ks) \/ exists e, hnd (lnk p) = HGone e /\ (ended (lnk p) <> None \/ EvErr e ∈ values None ks))).
Proof.
  intros Hnow Hsl R Hrun Hs i p Hi Hst HX. destruct (net_reached _ _ _ _ _ R) as [A _]. pose proof (A _ _ Hi) as I. split; [exact (pv_wire _ I)|].
  assert (Hx : (exists cmd, hnd (lnk p) = HExec cmd) \/ forall cmd, hnd (lnk p) <> HExec cmd) by (destruct (hnd (lnk p)); eauto; right; discriminate).
  destruct Hx as [[cmd Eh]|Hx]; [left; destruct (still_exec _ _ T now sl ds n x Hnow Hsl R Hrun Hs i p cmd Hi HX Eh) as (j & H1 & H2); eauto|right].
  destruct p as [st l o w]. cbn in Hst. subst st. intros ks t Hk. exact (any_prompt l ks t (pv_reach _ I) Hk (still_links _ _ _ _ _ _ _ _ Hs HX Hrun Hi I Hx)).
Qed.
Lemma plain_quiet x i p : peers x !! i = Some p -> stg p = Served -> ended (lnk p) = None -> arrays_only (concat (given (lnk p))) -> ~ talks x i.
Proof. intros Hi Hs He Hp (p' & Hi' & H). assert (p' = p) as -> by congruence. destruct H as [H|[H|H]]; auto. Qed.
Theorem mute_console (T : Z -> Prop) now sl ds n x : T now -> (sl < length ds)%nat -> rtc (happens T) (boot sl ds n) x -> now_is x = Running -> rests_but (talks x) (prints x) T x ->
  forall i p, peers x !! i = Some p -> stg p = Served -> ended (lnk p) = None -> arrays_only (concat (given (lnk p))) -> replied (log (lnk p)) (written p) /\
    ((exists cmd j, performs x j i cmd /\ behind (prints x) x j 0 i) \/
     hnd (lnk p) = HIdle /\ forall ks t, reads_as (concat (given (lnk p))) ks t -> map fst (log (lnk p)) = commands (values None ks)).
Proof.
  intros Hnow Hsl R Hrun Hs i p Hi Hst He Hp. destruct (mute_served _ _ T now sl ds n x Hnow Hsl R Hrun Hs i p Hi Hst (plain_quiet x i p Hi Hst He Hp)) as [H1 [H2|H2]]; split; auto.
  right. split; [|intros ks t Hr; apply (H2 ks t Hr)]. destruct Hp as (ks & t & Hr & Ht & Hv). destruct (H2 ks t Hr) as [_ [[? _]|(e & _ & [?|Hx])]]; auto; [contradiction|]. destruct (Hv _ Hx) as [l Hl]. discriminate.
Qed.
Lemma sends_plain cs s : sends cs s -> arrays_only s /\ forall ks t, reads_as s ks t -> commands (values None ks) = cs.
Proof.
  intros H. assert (E : s = concat [s]) by (cbn; rewrite app_nil_r; reflexivity). rewrite E in H |- *. pose proof (pipeline_exact cs [s] H) as HE.
  assert (HV : forall ks t, reads_as (concat [s]) ks t -> t = Over /\ values None ks = map cmd_event cs).
  { intros ks t Hr. pose proof (grammar_exact _ _ _ Hr) as G. rewrite HE in G. injection G as G1 G2. destruct t; cbn in *; [|exfalso|discriminate].
    - apply app_inj_tail in G1 as [G1 _]. auto.
    - change [EvErr EUnexpectedEof; EvErr EEof] with ([EvErr EUnexpectedEof] ++ [EvErr EEof]) in G1. rewrite app_assoc in G1. apply app_inj_tail in G1 as [G1 _].
      assert (Hin : EvErr EUnexpectedEof ∈ map cmd_event cs) by (unfold cmd_event in *; rewrite G1; apply elem_of_app; right; left). apply elem_of_list_In, in_map_iff in Hin as (? & Hx & _). discriminate. }
  split.
  - destruct (grammar_total (concat [s])) as (ks & t & Hr). destruct (HV _ _ Hr) as [-> Hv]. exists ks, Over. split; auto. split; [discriminate|]. intros ev Hev. rewrite Hv in Hev. apply elem_of_list_In, in_map_iff in Hev as (c & <- & _). unfold cmd_event. eauto.
  - intros ks t Hr. destruct (HV _ _ Hr) as [_ ->]. clear. induction cs as [|c cs IH]; [reflexivity|]. unfold cmd_event in *. cbn [map commands default from_option id]. unfold id. rewrite cmd_event_command, IH. reflexivity.
Qed.
(** A client that has only sent arrays makes nobody write to the console. *)
Lemma quiet_link_arrays l : rtc goes opened l -> dead l = false -> ended l = None -> arrays_only (concat (given l)) -> silent l.
Proof.
  intros R Hd He (ks & t & Hr & Ht & Hv). pose proof (events_of _ _ _ Hr) as E. pose proof (J_goes l R) as (passed & _ & _ & _ & Hc). specialize (Hc Hd). pose proof (whys_reached l R) as [W1 W2].
  assert (HE : forall e, EvErr e ∈ (parse_stream (given l)).1 -> why e None -> False).
  { intros e H Hw. rewrite E in H. apply elem_of_app in H as [H|H]; [destruct (Hv _ H) as [? ?]; discriminate|]. destruct t; cbn in H; [| |contradiction]; repeat (apply elem_of_cons in H as [[= ->]|H]; [cbn in Hw; try contradiction; try discriminate|]); inversion H. }
  assert (HD : forall d, EvData d ∈ (parse_stream (given l)).1 -> exists a, d = RArr a).
  { intros d H. rewrite E in H. apply elem_of_app in H as [H|H]; [destruct (Hv _ H) as [a Ha]; injection Ha; eauto|]. exfalso. destruct t; cbn in H; repeat (apply elem_of_cons in H as [[=]|H]); inversion H. }
  unfold silent, clause in *. rewrite He in W1, W2.
  assert (HX : forall e, err_clause l passed e -> EvErr e ∈ (parse_stream (given l)).1).
  { intros e [H _]. destruct (H [] (or_intror eq_refl)) as (e' & tl & Htl & Ee). rewrite app_nil_r in Htl. rewrite Htl, (Ee ltac:(congruence)). apply elem_of_app. right. left. }
  assert (HN : shut l = false /\ match par l with PRead b => data_clause l passed b | PSend [EvData d] (Some b) => data_clause l (passed ++ [EvData d]) b | PSend [EvErr e] _ => err_clause l passed e | _ => False end -> match par l with PRead _ => True | PSend evs _ => Forall (fun ev => exists a, ev = EvData (RArr a)) evs | _ => False end).
  { intros [Hs H]. specialize (W2 Hs). destruct (par l) as [b|evs nx|]; auto. destruct evs as [|[d|e] [|]]; try destruct nx; try contradiction.
    - constructor; [|constructor]. destruct H as [_ H]. specialize (H [] (or_intror eq_refl)). rewrite !app_nil_r in H. destruct (HD d) as [a ->]; eauto. rewrite H, <- app_assoc. apply elem_of_app. right. left.
    - exfalso. eapply (HE e); eauto. apply W2. left.
    - exfalso. eapply (HE e); eauto. apply W2. left. }
  destruct (hnd l) as [|cmd|e|e] eqn:Eh; [exact (HN Hc)|exact (HN Hc)|exact (HE e (HX e (proj2 Hc)) (W1 e (or_introl eq_refl)))|exact (HE e (HX e Hc) (W1 e (or_intror eq_refl)))].
Qed.
Theorem mute_silent (T : Z -> Prop) sl ds n x i p : rtc (happens T) (boot sl ds n) x -> peers x !! i = Some p -> ended (lnk p) = None -> arrays_only (concat (given (lnk p))) -> silent (lnk p).
Proof. intros R Hi. destruct (net_reached _ _ _ _ _ R) as [A _]. destruct (A _ _ Hi) as [I1 I2 _ _ _]. apply quiet_link_arrays; auto. Qed.
Lemma behind_end XE x j p i : behind XE x j p i -> exists cmd i', performs x j i' cmd /\ (XE i' \/ may_loop cmd /\ looping x j i' cmd).
Proof. induction 1; eauto. Qed.
(** Above all locks of those that stand still. *)
Lemma behind_above XE x j p i : behind XE x j p i -> forall (L : N -> Prop), (forall i cmd key, performs x j i cmd -> XE i \/ may_loop cmd -> touched cmd key -> ~ L (lockpos key)) ->
  (forall i cmd k k', performs x j i cmd -> touched cmd k -> touched cmd k' -> L (lockpos k) -> (lockpos k < lockpos k')%N -> L (lockpos k')) ->
  forall cmd, performs x j i cmd -> (~ XE i /\ ~ may_loop cmd) \/ (exists key, touched cmd key /\ L (lockpos key)) -> ~ (forall key, touched cmd key -> (p <= lockpos key)%N -> L (lockpos key)).
Proof.
  intros H L HL HC. induction H as [p i cmd R Hm|p i cmd key i' cmd' key' R R' K K' Ek Hp H IH]; intros c0 R0 Hc Ha;
    (assert (c0 = cmd) as -> by (destruct R as (p1 & E1 & E2 & _), R0 as (p2 & E3 & E4 & _); congruence)).
  - destruct Hc as [Hc|(key & K & Lk)]; [tauto|]. eapply HL; eauto. tauto.
  - pose proof (Ha _ K Hp) as Lk. apply (IH cmd' R'); [right; exists key'; rewrite <- Ek; auto|]. intros k Hk Hle. eapply (HC i' cmd' key' k); eauto; rewrite <- Ek; [auto|lia].
Qed.
Theorem mute_above (XP XE : nat -> Prop) (T : Z -> Prop) (L : N -> Prop) now sl ds n x j i cmd : T now -> (sl < length ds)%nat -> rtc (happens T) (boot sl ds n) x -> now_is x = Running -> rests_but XP XE T x ->
  (forall i cmd key, performs x j i cmd -> XE i \/ may_loop cmd -> touched cmd key -> ~ L (lockpos key)) ->
  (forall i cmd k k', performs x j i cmd -> touched cmd k -> touched cmd k' -> L (lockpos k) -> (lockpos k < lockpos k')%N -> L (lockpos k')) ->
  performs x j i cmd -> ~ XP i -> ~ XE i -> ~ may_loop cmd -> ~ (forall key, touched cmd key -> L (lockpos key)).
Proof.
  intros Hnow Hsl R Hrun Hs HL HC Hp HX HE Hm Ha. pose proof Hp as (p & Hi & Hh & Hr). destruct (still_exec _ _ T now sl ds n x Hnow Hsl R Hrun Hs i p cmd Hi HX Hh) as (j' & (p' & Hi' & _ & Hr') & B).
  assert (p' = p) as -> by congruence. assert (j' = j) as -> by congruence. eapply (behind_above _ _ _ _ _ B L HL HC cmd Hp); eauto.
Qed.
Theorem mute_pipelines (T : Z -> Prop) now sl ds n x : T now -> (sl < length ds)%nat -> rtc (happens T) (boot sl ds n) x -> now_is x = Running -> rests_but (talks x) (prints x) T x ->
  forall i p cs, peers x !! i = Some p -> stg p = Served -> ended (lnk p) = None -> sends cs (concat (given (lnk p))) ->
    (exists cmd j, performs x j i cmd /\ behind (prints x) x j 0 i) \/ map fst (log (lnk p)) = cs /\ replied (log (lnk p)) (written p) /\ hnd (lnk p) = HIdle.
Proof.
  intros Hnow Hsl R Hrun Hs i p cs Hi Hst He Hc. destruct (sends_plain _ _ Hc) as [Hp Hv]. destruct (mute_console T now sl ds n x Hnow Hsl R Hrun Hs i p Hi Hst He Hp) as [H1 [H2|[H2 H3]]]; auto.
  right. pose proof Hp as (ks & t & Hr & _). split; [|auto]. rewrite (H3 ks t Hr). eauto.
Qed.
Lemma rests_any XP XE T x : (forall y, ~ wadvance T x y) -> rests_but XP XE T x.
Proof.
  intros Hn y St. split; [intros E; destruct St; cbn in *; try discriminate E; eapply Hn; (split; [econstructor; eassumption|right; right; cbn; discriminate])|]. split.
  - intros i H. exfalso. eapply Hn. split; [exact St|]. left. congruence.
  - intros _ j c c' i Hj Hj' H. exfalso. eapply Hn. split; [exact St|]. right. left. intros E. apply (f_equal (fun l => l !! j)) in E. rewrite !list_lookup_fmap, Hj, Hj' in E. cbn in E. congruence.
Qed.
End WithParams.
