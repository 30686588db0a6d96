(** The theorems about the whole process. *)
From Verif Require Export WorldProofs NetSched.

Lemma destutter {X} (R : X -> X -> Prop) (h : nat -> X) N : (forall n, (n < N)%nat -> h (S n) = h n \/ R (h n) (h (S n))) ->
  exists M (f : nat -> X) (phi : nat -> nat), f 0%nat = h 0%nat /\ (forall m, (m < M)%nat -> R (f m) (f (S m))) /\ phi 0%nat = 0%nat /\ phi N = M /\
    (forall n, (n < N)%nat -> phi (S n) = phi n \/ phi (S n) = S (phi n)) /\ (forall n, (n <= N)%nat -> h n = f (phi n) /\ (phi n <= M)%nat).
Proof.
  induction N as [|N IH]; intros H.
  - exists 0%nat, h, (fun n => n). split; [auto|]. split; [intros; lia|]. split; [auto|]. split; [auto|]. split; [intros; lia|]. intros n Hn. auto.
  - destruct IH as (M & f & phi & F0 & FM & P0 & PN & PS & PH); [intros n Hn; apply H; lia|]. destruct (H N ltac:(lia)) as [E|E].
    + exists M, f, (fun n => if (n <=? N)%nat then phi n else M). split; auto. split; auto. split; auto.
      split; [destruct (Nat.leb_spec (S N) N); [lia|reflexivity]|]. split.
      * intros n Hn. destruct (Nat.leb_spec (S n) N), (Nat.leb_spec n N); try lia; [apply PS; lia|]. assert (n = N) as -> by lia. auto.
      * intros n Hn. destruct (Nat.leb_spec n N); [apply PH; auto|]. assert (n = S N) as -> by lia. split; [|lia]. rewrite E. destruct (PH N ltac:(lia)) as [-> _]. congruence.
    + exists (S M), (fun m => if (m <=? M)%nat then f m else h (S N)), (fun n => if (n <=? N)%nat then phi n else S M). split; auto. split; [|split; [auto|split]].
      * intros m Hm. destruct (Nat.leb_spec (S m) M), (Nat.leb_spec m M); try lia; [apply FM; lia|]. assert (m = M) as -> by lia. destruct (PH N ltac:(lia)) as [E1 _]. rewrite PN in E1. congruence.
      * destruct (Nat.leb_spec (S N) N); [lia|reflexivity].
      * split.
        -- intros n Hn. destruct (Nat.leb_spec (S n) N), (Nat.leb_spec n N); try lia; [apply PS; lia|]. assert (n = N) as -> by lia. auto.
        -- intros n Hn. destruct (Nat.leb_spec n N).
           ++ destruct (PH n ltac:(lia)) as [E1 E2]. destruct (Nat.leb_spec (phi n) M); [|lia]. auto.
           ++ assert (n = S N) as -> by lia. destruct (Nat.leb_spec (S M) M); [lia|]. auto.
Qed.

Section WithParams.
Context {P : Setup}.

Lemma net_boot sl ds css : net css (boot sl ds (length css)) = serve sl ds css.
Proof.
  unfold net, boot, serve. cbn. f_equal.
  - apply map_ext. intros d. f_equal. clear. induction css as [|c css IH]; cbn; congruence.
  - apply list_eq. intros i. rewrite list_lookup_imap, list_lookup_fmap. destruct (css !! i) as [c|] eqn:E.
    + rewrite lookup_replicate_2 by (eapply lookup_lt_Some; eauto). reflexivity.
    + apply lookup_ge_None in E. replace (replicate (length css) (mkPeer Away opened None []) !! i) with (@None peer); [reflexivity|]. symmetry. apply lookup_ge_None. rewrite replicate_length. auto.
Qed.
(** The facts at all times of an execution whose last state fits. *)
Lemma along T sl ds css (f : nat -> world) N : f 0%nat = boot sl ds (length css) -> (forall n, (n < N)%nat -> happens T (f n) (f (S n))) -> fits css (f N) ->
  forall n, (n <= N)%nat -> all_peers (f n) /\ fits css (f n).
Proof.
  intros H0 Hf HF. assert (A : forall n, (n <= N)%nat -> all_peers (f n)).
  { induction n as [|n IH]; intros Hn; [rewrite H0; apply all_peers_boot|]. eapply all_peers_step; [apply IH; lia|apply Hf; lia]. }
  assert (B : forall d n, (n + d = N)%nat -> fits css (f n)).
  { induction d as [|d IH]; intros n Hn; [replace n with N by lia; auto|]. intros i p Hi. destruct (happens_pmove _ _ _ (Hf n ltac:(lia))) as [L M].
    destruct (lookup_lt_is_Some_2 (peers (f (S n))) i) as [p' Hp']; [rewrite L; eapply lookup_lt_Some; eauto|].
    destruct (IH (S n) ltac:(lia) i p' Hp') as (cs & rest & Hcs & ->). destruct (handed_move p p' (A n ltac:(lia) i p Hi) (M _ _ _ Hi Hp')) as [r E].
    rewrite E, <- app_assoc in Hcs. eauto. }
  intros n Hn. split; auto. apply (B (N - n)%nat). lia.
Qed.
(** The same for any commands that fit the last state. *)
Theorem world_in_order (T : Z -> Prop) lim sl ds css (f : nat -> world) N : (exists t, T t) -> (forall t, T t -> t <= lim) ->
  each one_step css -> each (far_deadlines T lim) css -> (forall d key t, d ∈ ds -> names css key -> exps d !! key = Some t -> lim <= t) ->
  f 0%nat = boot sl ds (length css) -> (forall n, (n < N)%nat -> happens T (f n) (f (S n))) -> fits css (f N) ->
  exists g : nat -> alone, g 0%nat = (mkMgr sl ds, map (fun _ => []) css) /\ (forall n, (n < N)%nat -> rtc (mturn T) (g n) (g (S n))) /\
    (forall n i p, (n <= N)%nat -> peers (f n) !! i = Some p -> exists l, (g n).2 !! i = Some l /\
      (l = log (lnk p) \/ exists cmd r, hnd (lnk p) = HExec cmd /\ l = log (lnk p) ++ [(cmd, r)]) /\ replied (log (lnk p)) (written p)) /\
    same_contents (mkServer (wsel (f N)) (wcores (f N)) []) (g N).
Proof.
  intros Ht HT H1 H2 Hd H0 Hf HF.
  pose proof (along T sl ds css f N H0 Hf HF) as A.
  destruct (destutter (nstep T) (fun n => net css (f n)) N) as (M & h & phi & h0 & hM & p0 & pN & pS & pH).
  { intros n Hn. destruct (A n ltac:(lia)) as [A1 A2]. apply net_step; auto. }
  rewrite H0, net_boot in h0.
  destruct (server_linearizable T lim sl ds css h M Ht HT H1 H2 Hd h0 hM) as (g & g0 & gM & gC & gE).
  exists (fun n => g (phi n)). split; [rewrite p0; auto|]. split; [|split].
  - intros n Hn. destruct (pH (S n) ltac:(lia)) as [_ Hle]. destruct (pS n Hn) as [E|E]; rewrite E in *; [apply rtc_refl|]. apply gM. lia.
  - intros n i p Hn Hi. destruct (pH n Hn) as [E Hle]. destruct (gC (phi n) Hle) as [L C]. rewrite <- E in C.
    destruct (C i _ (net_lookup css _ i p Hi)) as (lg & Hlg & Hcase). destruct (A n Hn) as [A1 A2]. pose proof (pv_wire _ (A1 _ _ Hi)) as Hw.
    exists lg. split; [auto|]. split; [|auto]. destruct Hcase as [->|(cmd & j & r & Hb & ->)]; [left; reflexivity|]. right. exists cmd, r. split; [|reflexivity].
    cbn in Hb. unfold busy_of in Hb. destruct (runs_on p); [|discriminate]. destruct (hnd (lnk p)); try discriminate. congruence.
  - destruct (pH N ltac:(lia)) as [E _]. rewrite <- pN, <- E in gE. exact gE.
Qed.
Theorem world_linearizable (T : Z -> Prop) lim sl ds css (f : nat -> world) N : (exists t, T t) -> (forall t, T t -> t <= lim) ->
  each one_step css -> each (far_deadlines T lim) css -> (forall d key t, d ∈ ds -> names css key -> exps d !! key = Some t -> lim <= t) ->
  f 0%nat = boot sl ds (length css) -> (forall n, (n < N)%nat -> happens T (f n) (f (S n))) ->
  (forall i p, peers (f N) !! i = Some p -> exists cs q, css !! i = Some cs /\ sends cs (concat (given (lnk p)) ++ q)) ->
  exists g : nat -> alone, g 0%nat = (mkMgr sl ds, map (fun _ => []) css) /\ (forall n, (n < N)%nat -> rtc (mturn T) (g n) (g (S n))) /\
    (forall n i p, (n <= N)%nat -> peers (f n) !! i = Some p -> exists log cs rest, (g n).2 !! i = Some log /\ css !! i = Some cs /\ cs = map fst log ++ rest /\ written_up p log) /\
    same_contents (mkServer (wsel (f N)) (wcores (f N)) []) (g N).
Proof.
  intros Ht HT H1 H2 Hd H0 Hf Hs.
  assert (A0 : forall n, (n <= N)%nat -> all_peers (f n)).
  { induction n as [|n IH]; intros Hn; [rewrite H0; apply all_peers_boot|]. eapply all_peers_step; [apply IH; lia|apply Hf; lia]. }
  assert (HF : fits css (f N)).
  { intros i p Hi. destruct (Hs i p Hi) as (cs & q & Hcs & Hsend). destruct (pipe_order cs q (lnk p) (pv_reach _ (A0 N ltac:(lia) i p Hi)) Hsend) as [rest Hr]. eauto. }
  pose proof (along T sl ds css f N H0 Hf HF) as A.
  destruct (world_in_order T lim sl ds css f N Ht HT H1 H2 Hd H0 Hf HF) as (g & g0 & gS & gC & gE).
  exists g. split; [auto|]. split; [auto|]. split; [|auto]. intros n i p Hn Hi. destruct (gC n i p Hn Hi) as (lg & Hlg & Hcase & Hw).
  destruct (A n Hn) as [A1 A2]. destruct (A2 i p Hi) as (cs & rest & Hcs & Hc). exists lg, cs.
  destruct Hcase as [->|(cmd & r & Hx & ->)].
  - unfold handed in Hc. rewrite <- app_assoc in Hc. eexists. split; [auto|]. split; [auto|]. split; [exact Hc|]. left. auto.
  - exists rest. split; [auto|]. split; [auto|]. split; [rewrite map_app; cbn; unfold handed in Hc; rewrite Hx in Hc; auto|]. right. eauto 10.
Qed.

(** ** Rest *)
Definition sofar (x : world) : list (list command) := map (fun p => handed (lnk p)) (peers x).
Lemma peers_length T x y : rtc (happens T) x y -> length (peers y) = length (peers x).
Proof. induction 1 as [|x y z H _ IH]; auto. rewrite IH. apply (happens_pmove _ _ _ H). Qed.
Lemma net_reached T sl ds n x : rtc (happens T) (boot sl ds n) x -> all_peers x /\ rtc (nstep T) (serve sl ds (sofar x)) (net (sofar x) x).
Proof.
  intros R. pose proof (peers_length _ _ _ R) as L. cbn in L. rewrite replicate_length in L.
  assert (n = length (sofar x)) as E by (unfold sofar; rewrite map_length; auto). rewrite E in R.
  destruct (rtc_path _ _ _ R) as (N & f & H0 & HN & Hf).
  assert (HF : fits (sofar x) (f N)).
  { intros i p Hi. exists (handed (lnk p)), []. rewrite app_nil_r. split; auto. unfold sofar. rewrite list_lookup_fmap, <- HN, Hi. reflexivity. }
  pose proof (along T sl ds (sofar x) f N H0 Hf HF) as A. split; [rewrite <- HN; apply A; lia|].
  assert (G : forall n, (n <= N)%nat -> rtc (nstep T) (serve sl ds (sofar x)) (net (sofar x) (f n))).
  { induction n0 as [|k IH]; intros Hk; [rewrite H0, net_boot; apply rtc_refl|]. destruct (A k ltac:(lia)) as [A1 A2].
    destruct (net_step T _ _ _ A1 A2 (Hf k ltac:(lia))) as [E1|E1]; [rewrite E1; apply IH; lia|]. eapply rtc_r; [apply IH; lia|exact E1]. }
  specialize (G N ltac:(lia)). rewrite HN in G. exact G.
Qed.
Lemma select_encodes m cmd : exists bs, reply_bytes (select m cmd).1 = Some bs.
Proof.
  unfold select. destruct cmd as [|? [|a [|]]]; cbn; eauto. destruct (atoi (str a)) as [i|]; cbn; eauto.
  destruct ((zlen (mdbs m) <=? i) || (i <? 0)); cbn; eauto.
Qed.
Lemma insert_differs {X} (l : list X) i x y : l !! i = Some x -> y <> x -> <[i := y]> l <> l.
Proof. intros Hi Hn E. apply (f_equal (fun l => l !! i)) in E. rewrite list_lookup_insert in E by (eapply lookup_lt_Some; eauto). congruence. Qed.
Lemma conn_at css x i s : sess (net css x) !! i = Some s -> exists p, peers x !! i = Some p /\ s = conn_of (default [] (css !! i)) p.
Proof. cbn. rewrite list_lookup_imap. destruct (peers x !! i) as [p|] eqn:E; [|discriminate]. intros [= <-]. eauto. Qed.
(** What is still to be done for a connection is the command received. *)
Lemma conn_sofar x i p : peers x !! i = Some p -> pinv p -> conn_of (default [] (sofar x !! i)) p =
  mkConn (log (lnk p)) (busy_of p) (match runs_on p, hnd (lnk p) with None, HExec cmd => [cmd] | _, _ => [] end).
Proof.
  intros Hi I. unfold sofar. rewrite list_lookup_fmap, Hi. cbn. unfold conn_of. f_equal. unfold done_of, handed. destruct (runs_on p) as [j|] eqn:Ej.
  - destruct (pv_run _ I j Ej) as (cmd & -> & _). rewrite <- (map_length fst (log (lnk p))), <- drop_drop, drop_app. reflexivity.
  - rewrite Nat.add_0_r, <- (map_length fst (log (lnk p))), drop_app. reflexivity.
Qed.
Lemma net_rests T sl ds n x : rtc (happens T) (boot sl ds n) x -> now_is x = Running -> (forall y, ~ wadvance T x y) -> forall y, ~ nadvance T (net (sofar x) x) y.
Proof.
  intros R Hrun Hn y [St Hne]. destruct (net_reached _ _ _ _ _ R) as [A _].
  remember (net (sofar x) x) as nx eqn:Ex. destruct St as [sl' cs ss i h cmd rest Hi Hsel|sl' cs ss i h cmd rest c Hi Hsel Hc|sl' cs ss j c c' Hj Hs|sl' cs ss i h cmd j rest c r Hi Hj Ht].
  - assert (Hi' : sess (net (sofar x) x) !! i = Some (mkConn h None (cmd :: rest))) by (rewrite <- Ex; exact Hi). destruct (conn_at _ _ _ _ Hi') as (p & Hp & E).
    rewrite (conn_sofar _ _ _ Hp (A _ _ Hp)) in E. injection E as -> Eb Et. destruct (A _ _ Hp) as [_ _ _ _ Hst]. destruct x as [xs xc xp xg xf]. cbn in *. subst xf. injection Ex as -> -> _.
    destruct p as [st l o w]. cbn in *. destruct o as [j|]; [discriminate|]. destruct (hnd l) eqn:Eh; try discriminate. injection Et as <- ->. destruct Hst as [->|[? _]]; [|discriminate].
    destruct (select_encodes (mkMgr xs (map cdb xc)) cmd) as [bs Hbs].
    eapply Hn. split; [eapply W_select; eauto|]. left. cbn. eapply insert_differs; eauto. intros E. injection E as E _. apply (f_equal hnd) in E. cbn in E. congruence.
  - assert (Hi' : sess (net (sofar x) x) !! i = Some (mkConn h None (cmd :: rest))) by (rewrite <- Ex; exact Hi). destruct (conn_at _ _ _ _ Hi') as (p & Hp & E).
    rewrite (conn_sofar _ _ _ Hp (A _ _ Hp)) in E. injection E as -> Eb Et. destruct (A _ _ Hp) as [_ _ _ _ Hst]. destruct x as [xs xc xp xg xf]. cbn in *. subst xf. injection Ex as -> -> _.
    destruct p as [st l o w]. cbn in *. destruct o as [j|]; [discriminate|]. destruct (hnd l) eqn:Eh; try discriminate. injection Et as <- ->. destruct Hst as [->|[? _]]; [|discriminate].
    destruct cmd as [|a cmd].
    + eapply Hn. split; [eapply W_empty_panic; eauto|]. right. right. cbn. discriminate.
    + eapply Hn. split; [eapply W_start; eauto; discriminate|]. left. cbn. eapply insert_differs; [eauto|discriminate].
  - destruct Hne as [Hne|Hne]; [cbn in Hne; congruence|]. destruct x as [xs xc xp xg xf]. cbn in *. subst xf. injection Ex as -> -> _.
    eapply Hn. split; [eapply W_run; eauto|]. auto.
  - assert (Hi' : sess (net (sofar x) x) !! i = Some (mkConn h (Some (cmd, j)) rest)) by (rewrite <- Ex; exact Hi). destruct (conn_at _ _ _ _ Hi') as (p & Hp & E).
    rewrite (conn_sofar _ _ _ Hp (A _ _ Hp)) in E. injection E as -> Eb Et. destruct (A _ _ Hp) as [_ _ _ _ Hst]. destruct x as [xs xc xp xg xf]. cbn in *. subst xf. injection Ex as -> -> _.
    destruct p as [st l o w]. unfold busy_of in Eb. cbn in *. destruct o as [j'|]; [|discriminate]. destruct (hnd l) eqn:Eh; try discriminate. injection Eb as <- <-. destruct Hst as [->|[? _]]; [|discriminate].
    destruct (reply_bytes r) as [bs|] eqn:Er.
    + eapply Hn. split; [eapply W_reply; eauto|]. left. cbn. eapply insert_differs; [eauto|discriminate].
    + eapply Hn. split; [eapply W_reply_panic; eauto|]. right. right. cbn. discriminate.
Qed.
Lemma lstep_differs l l' : rtc goes opened l -> Pipe.lstep l l' -> l' <> l.
Proof. intros R St ->. pose proof (PipeProofs.step_weight _ _ (buf_reached _ R) St). lia. Qed.
Lemma link_rests T x i l o w : (forall y, ~ wadvance T x y) -> now_is x = Running -> peers x !! i = Some (mkPeer Served l o w) -> pinv (mkPeer Served l o w) ->
  (forall cmd, hnd l <> HExec cmd) -> rests l.
Proof.
  intros Hn Hrun Hi [I1 I2 I3 I4 I5] Hx. split; [exact I2|]. intros l' St. cbn in *. destruct x as [xs xc xp xg xf]. cbn in *. subst xf.
  pose proof (lstep_differs _ _ I1 St) as Hd.
  assert (Hw : log l' = log l -> dead l' = false -> False).
  { intros H1 H2. eapply Hn. split; [eapply W_link; eauto|]. left. cbn. eapply insert_differs; eauto. congruence. }
  assert (Hp : wstep T (mkW xs xc xp xg Running) (mkW xs xc xp xg Panicked) -> False).
  { intros H. eapply Hn. split; [exact H|]. right. right. cbn. discriminate. }
  inversion St; subst; cbn in *; auto.
  - apply Hp. eapply W_parser_panic; eauto.
  - apply Hp. eapply W_value_panic; eauto.
  - eapply Hx; reflexivity.
  - eapply Hx; reflexivity.
Qed.
Lemma world_rest_links (T : Z -> Prop) now sl ds n x : T now -> (sl < length ds)%nat -> rtc (happens T) (boot sl ds n) x -> now_is x = Running -> (forall y, ~ wadvance T x y) ->
  signal x = false /\
  (spins x \/ forall i p, peers x !! i = Some p -> stg p <> Away -> stg p = Served /\ rests (lnk p)).
Proof.
  intros Hnow Hsl R Hrun Hn. destruct (net_reached _ _ _ _ _ R) as [A RN]. pose proof (net_rests _ _ _ _ _ R Hrun Hn) as HN. split.
  { destruct x as [xs xc xp xg xf]. cbn in *. subst xf. destruct xg; auto. exfalso. eapply Hn. split; [apply W_exit|]. right. right. cbn. discriminate. }
  destruct (server_progress T now sl ds _ _ Hnow Hsl RN HN) as [Hfin|(j & c & t & Hj & Ht & [Hc|Hc])].
  - right. intros i p Hi Hst.
    assert (Hsv : stg p = Served).
    { assert (Hno : forall j q, peers x !! j = Some q -> stg q <> Held).
      { intros j [st l o w] Hq Hh. cbn in Hh. subst st. destruct x as [xs xc xp xg xf]. cbn in *. subst xf. eapply Hn. split; [eapply W_serve; eauto|]. left. cbn. eapply insert_differs; [eauto|discriminate]. }
      destruct p as [st l o w]. destruct st; cbn in *; auto; [contradiction| |destruct (Hno _ _ Hi); reflexivity].
      exfalso. destruct x as [xs xc xp xg xf]. cbn in *. subst xf. eapply Hn. split; [eapply W_accept; eauto|]. left. cbn. eapply insert_differs; [eauto|discriminate]. }
    split; auto. pose proof (A _ _ Hi) as I. destruct p as [st l o w]. cbn in Hsv. subst st.
    assert (Hx : forall cmd, hnd l <> HExec cmd).
    { intros cmd Hh. destruct (Hfin i _ (net_lookup _ _ _ _ Hi)) as [Hb Ht]. rewrite (conn_sofar _ _ _ Hi I) in Hb, Ht. unfold busy_of in Hb. cbn in *. rewrite Hh in *. destruct o; discriminate. }
    exact (link_rests _ _ _ _ _ _ Hn Hrun Hi I Hx).
  - exfalso. cbn in Hj. apply elem_of_list_lookup in Ht as [i Ht]. destruct t as [q b]. cbn in Hc. subst q. destruct x as [xs xc xp xg xf]. cbn in *. subst xf.
    eapply Hn. split; [eapply W_panic; eauto|]. right. right. cbn. discriminate.
  - left. exists j, c, t. auto.
Qed.

Theorem world_rests (T : Z -> Prop) now sl ds n x : T now -> (sl < length ds)%nat -> rtc (happens T) (boot sl ds n) x -> now_is x = Running -> (forall y, ~ wadvance T x y) ->
  signal x = false /\
  (spins x \/ forall i p, peers x !! i = Some p -> stg p <> Away -> stg p = Served /\
     forall cs, sends cs (concat (given (lnk p))) -> map fst (log (lnk p)) = cs /\ replied (log (lnk p)) (written p) /\
       match ended (lnk p) with None => hnd (lnk p) = HIdle | Some _ => exists e, hnd (lnk p) = HGone e end).
Proof.
  intros Hnow Hsl R Hrun Hn. destruct (net_reached _ _ _ _ _ R) as [A _]. destruct (world_rest_links T now sl ds n x Hnow Hsl R Hrun Hn) as [H1 [H2|H2]]; split; auto. right. intros i p Hi Hst.
  destruct (H2 i p Hi Hst) as [H3 Hr]. split; auto. intros cs Hs. pose proof (A _ _ Hi) as I. destruct (pipe_prompt cs (lnk p) (pv_reach _ I) Hs Hr) as [E1 E2]. split; [exact E1|]. split; [exact (pv_wire _ I)|exact E2].
Qed.

(** ** Executions are finite unless something comes from outside *)
Definition stage_weight (s : stage) : nat := match s with Away => 3 | Queued => 2 | Held => 1 | Served => 0 end.
Definition peer_weight (p : peer) : nat :=
  (stage_weight (stg p) + 2 * PipeProofs.weight (lnk p) + match runs_on p with Some _ => 0 | None => 1 end)%nat.
Definition world_weight (x : world) : nat := (match now_is x with Running => 1 | _ => 0 end + ConcProofs.total peer_weight (peers x))%nat.
Lemma wadvance_less T x y : all_peers x -> wadvance T x y -> (world_weight y < world_weight x)%nat \/
  (world_weight y = world_weight x /\ lupd ult (map ths (wcores y)) (map ths (wcores x))).
Proof.
  intros A [H Hne]. unfold world_weight.
  assert (Hlink : forall i l l' o w, peers x !! i = Some (mkPeer Served l o w) -> Pipe.lstep l l' -> (PipeProofs.weight l' < PipeProofs.weight l)%nat).
  { intros i l l' o w Hi St. apply PipeProofs.step_weight; auto. apply buf_reached. apply (pv_reach _ (A _ _ Hi)). }
  assert (Hcmd : forall i l j w, peers x !! i = Some (mkPeer Served l (Some j) w) -> forall cmd, hnd l = HExec cmd -> cmd <> []).
  { intros i l j w Hi cmd Hc. destruct (pv_run _ (A _ _ Hi) j eq_refl) as (c & Hc' & Hne'). cbn in Hc'. congruence. }
  assert (Hlive : forall i st l o w, peers x !! i = Some (mkPeer st l o w) -> dead l = false) by (intros i st l o w Hi; apply (pv_live _ (A _ _ Hi))).
  destruct H; cbn [now_is peers wcores] in *; try (left; lia).
  - left. match goal with |- context [<[i := ?s]> ps] => pose proof (total_insert peer_weight ps i _ s H) as E end. unfold peer_weight in *. cbn in *. lia.
  - left. match goal with |- context [<[i := ?s]> ps] => pose proof (total_insert peer_weight ps i _ s H) as E end. unfold peer_weight in *. cbn in *. lia.
  - left. pose proof (Hlink _ _ _ _ _ H H0). match goal with |- context [<[i := ?s]> ps] => pose proof (total_insert peer_weight ps i _ s H) as E end. unfold peer_weight in *. cbn [lnk runs_on stg] in *. lia.
  - left. pose proof (Hlink _ _ _ _ _ H (reply_lstep l cmd (select (mkMgr sl (map cdb cs)) cmd).1 H0 (select_nonempty _ H1) (Hlive _ _ _ _ _ H))).
    match goal with |- context [<[i := ?s]> ps] => pose proof (total_insert peer_weight ps i _ s H) as E end. unfold peer_weight in *. cbn [lnk runs_on stg] in *. lia.
  - left. match goal with |- context [<[i := ?s]> ps] => pose proof (total_insert peer_weight ps i _ s H) as E end. unfold peer_weight in *. cbn [lnk runs_on stg] in *. lia.
  - right. split; auto. destruct Hne as [Hne|[Hne|Hne]]; try congruence. exists j, (ths c), (ths c'). split; [rewrite list_lookup_fmap, H; auto|].
    split; [|rewrite list_fmap_insert; auto]. apply (advance_ult T). split; auto. intros E. apply Hne. rewrite list_fmap_insert, E. apply list_insert_id. rewrite list_lookup_fmap, H. auto.
  - left. pose proof (Hlink _ _ _ _ _ H (reply_lstep l cmd r H0 (Hcmd _ _ _ _ H _ H0) (Hlive _ _ _ _ _ H))).
    match goal with |- context [<[i := ?s]> ps] => pose proof (total_insert peer_weight ps i _ s H) as E end. unfold peer_weight in *. cbn [lnk runs_on stg] in *. lia.
Qed.
Lemma all_peers_rtc T x y : rtc (happens T) x y -> all_peers x -> all_peers y.
Proof. induction 1 as [|x y z H _ IH]; auto. intros Hx. apply IH. eapply all_peers_step; eauto. Qed.
Theorem world_finite T sl ds n (f : nat -> world) : rtc (happens T) (boot sl ds n) (f 0%nat) -> ~ (forall n, wadvance T (f n) (f (S n))).
Proof.
  intros R H. assert (A : forall n, all_peers (f n)).
  { induction n0 as [|k IH]; [eapply all_peers_rtc; [exact R|apply all_peers_boot]|]. eapply all_peers_step; [exact IH|right; apply H]. }
  assert (G : forall w, forall k, world_weight (f k) = w -> False).
  { intros w. induction (lt_wf w) as [w _ IHw]. intros k E. remember (map ths (wcores (f k))) as l eqn:El. revert k E El.
    induction (lupd_wf ult ult_wf l) as [l _ IHl]. intros k E El.
    destruct (wadvance_less T _ _ (A k) (H k)) as [Hl|[He Hl]]; [rewrite E in Hl; exact (IHw _ Hl (S k) eq_refl)|]. subst l. refine (IHl _ Hl (S k) _ eq_refl). congruence. }
  eapply (G _ 0%nat). reflexivity.
Qed.
End WithParams.
