(** End to end: proofs. *)
From Verif Require Export SpecWhole RefAll WorldMain GramWorld History.

Lemma by_client_app i h h' : by_client i (h ++ h') = by_client i h ++ by_client i h'.
Proof. unfold by_client. rewrite List.filter_app, map_app. reflexivity. Qed.
Lemma by_client_one i e : by_client i [e] = if Nat.eqb (who e) i then [(did e, got e)] else [].
Proof. unfold by_client. cbn. destruct (Nat.eqb (who e) i); reflexivity. Qed.

Section WithParams.
Context {P : Setup}.
Definition store_of (m : manager) : store := (cur m, map stored (mdbs m)).
Definition invs (m : manager) : Prop := forall d, d ∈ mdbs m -> Inv d.
Lemma is_select_named n args : is_select (n :: args) = true <-> named n "select".
Proof. unfold is_select, named. split; [apply beq_true|intros ->; apply beq_refl]. Qed.
Lemma mexec_srv now m cmd r m' : invs m -> mexec (eq now) m cmd (MDone r m') -> srv_step (store_of m) now cmd r (store_of m') /\ invs m'.
Proof.
  intros HI Hx. inversion Hx as [Hs|d r0 d' Hs Hd Hr| |]; subst.
  - destruct cmd as [|n args]; [discriminate|]. apply is_select_named in Hs. unfold select, store_of.
    assert (L : @zlen keyspace (map stored (mdbs m)) = zlen (mdbs m)) by (unfold zlen; rewrite map_length; reflexivity).
    destruct args as [|a [|? ?]]; [split; [apply sv_arity; [auto|discriminate]|auto]| |split; [apply sv_arity; [auto|discriminate]|auto]].
    destruct (atoi (str a)) as [i|] eqn:E; [|split; [apply sv_number; auto|auto]].
    destruct (Z.leb_spec (zlen (mdbs m)) i), (Z.ltb_spec i 0); cbn [orb fst snd cur mdbs];
      (split; [|exact HI]).
    1,2,3: unfold out_of_range; rewrite <- L; apply (sv_range (cur m) (map stored (mdbs m)) now n a i); auto; lia.
    apply sv_select; auto; lia.
  - assert (Hd' : d ∈ mdbs m) by (eapply elem_of_list_lookup_2; eauto). pose proof (HI _ Hd') as I. pose proof (ref_exact now d cmd (Done r d') I Hr) as R. split.
    + destruct cmd as [|n args]; [destruct R as (S' & [] & _)|]. unfold store_of, put_db. cbn [cur mdbs].
      replace (map stored (<[cur m := d']> (mdbs m))) with (<[cur m := stored d']> (map stored (mdbs m))) by (symmetry; apply (list_fmap_insert stored)).
      apply sv_command with (M := stored d); auto.
      * intros E. apply (is_select_named n args) in E. congruence.
      * rewrite list_lookup_fmap, Hd. reflexivity.
    + intros x Hx'. cbn in Hx'. apply elem_of_list_lookup in Hx' as [j Hj]. apply lookup_upd in Hj as [[<- ->]|[_ Hj]]; [exact (step_inv _ _ _ _ _ I Hr)|]. apply HI. eapply elem_of_list_lookup_2; eauto.
Qed.
Lemma srv_run_app st h st1 h' st2 : srv_run st h st1 -> srv_run st1 h' st2 -> srv_run st (h ++ h') st2.
Proof. intros H1 H2. induction H2 as [|st1 h' st2 e st3 H2 IH Hs]; [rewrite app_nil_r; auto|]. rewrite app_assoc. econstructor; eauto. Qed.
Lemma turns_srv T x y : rtc (mturn T) x y -> invs x.1 -> exists h, srv_run (store_of x.1) h (store_of y.1) /\ invs y.1 /\ Forall (fun e => T (when e)) h /\
  forall i l, x.2 !! i = Some l -> y.2 !! i = Some (l ++ by_client i h).
Proof.
  induction 1 as [x|x y z St _ IH]; intros HI.
  - exists []. split; [constructor|]. split; [auto|]. split; [constructor|]. intros i l Hl. cbn. rewrite app_nil_r. auto.
  - destruct St as [m logs i lg cmd now r m' Hi Ht Hx]. cbn [fst snd] in *. destruct (mexec_srv _ _ _ _ _ HI Hx) as [Hs HI'].
    destruct (IH HI') as (h & R & HIz & HT & HB). exists (mkDeed i now cmd r :: h). split.
    + change (mkDeed i now cmd r :: h) with ([mkDeed i now cmd r] ++ h). eapply srv_run_app; [|exact R]. eapply (sr_snoc _ [] _ (mkDeed i now cmd r)); [constructor|exact Hs].
    + split; [auto|]. split; [constructor; auto|]. intros k l Hk. change (mkDeed i now cmd r :: h) with ([mkDeed i now cmd r] ++ h). rewrite by_client_app, by_client_one, app_assoc. cbn [who did got].
      destruct (Nat.eqb_spec i k) as [<-|N].
      * assert (l = lg) as -> by congruence. apply HB. apply list_lookup_insert. eapply lookup_lt_Some; eauto.
      * rewrite app_nil_r. apply HB. rewrite list_lookup_insert_ne; auto.
Qed.
(** A growing history along a path. *)
Lemma path_srv T (g : nat -> alone) N : (forall n, (n < N)%nat -> rtc (mturn T) (g n) (g (S n))) -> invs (g 0%nat).1 ->
  exists h : nat -> list deed, h 0%nat = [] /\ (forall n, (n < N)%nat -> exists h', h (S n) = h n ++ h') /\
    (forall n, (n <= N)%nat -> srv_run (store_of (g 0%nat).1) (h n) (store_of (g n).1) /\ invs (g n).1 /\ Forall (fun e => T (when e)) (h n) /\
      forall i l, (g 0%nat).2 !! i = Some l -> (g n).2 !! i = Some (l ++ by_client i (h n))).
Proof.
  intros Hg HI. induction N as [|N IH].
  - exists (fun _ => []). split; [auto|]. split; [intros; lia|]. intros n Hn. assert (n = 0%nat) as -> by lia. split; [constructor|]. split; [auto|]. split; [constructor|]. intros i l Hl. cbn. rewrite app_nil_r. auto.
  - destruct IH as (h & h0 & hS & hP); [intros n Hn; apply Hg; lia|]. destruct (hP N ltac:(lia)) as (R & I & F & B).
    destruct (turns_srv T _ _ (Hg N ltac:(lia)) I) as (h1 & R1 & I1 & F1 & B1).
    exists (fun n => if (n <=? N)%nat then h n else h N ++ h1). split; [auto|]. split.
    + intros n Hn. destruct (Nat.leb_spec (S n) N), (Nat.leb_spec n N); try lia; [apply hS; lia|]. assert (n = N) as -> by lia. eauto.
    + intros n Hn. destruct (Nat.leb_spec n N); [apply hP; lia|]. assert (n = S N) as -> by lia. split; [eapply srv_run_app; eauto|]. split; [auto|]. split; [apply Forall_app; auto|].
      intros i l Hl. rewrite by_client_app, app_assoc. apply B1, B, Hl.
Qed.

Lemma asks_fit css x : all_peers x -> (forall i p, peers x !! i = Some p -> exists cs, css !! i = Some cs /\ asks (concat (given (lnk p))) cs) -> fits css x.
Proof.
  intros A H i p Hi. destruct (H i p Hi) as (cs & Hcs & ks & t & Hr & ->). destruct (GramPipe.any_order (lnk p) ks t (pv_reach _ (A _ _ Hi)) Hr) as [rest E]. eauto.
Qed.
Lemma all_along T sl ds n (f : nat -> world) N : f 0%nat = boot sl ds n -> (forall n, (n < N)%nat -> happens T (f n) (f (S n))) -> forall n, (n <= N)%nat -> all_peers (f n).
Proof. intros H0 Hf. induction n0 as [|k IH]; intros Hn; [rewrite H0; apply all_peers_boot|]. eapply all_peers_step; [apply IH; lia|apply Hf; lia]. Qed.
Lemma names_empty (n : nat) lim d key t : d ∈ replicate n empty_db -> exps d !! key = Some t -> lim <= t.
Proof. intros Hd. apply elem_of_replicate in Hd as [-> _]. cbn. rewrite lookup_empty. discriminate. Qed.

Theorem whole (T : Z -> Prop) lim dbs css (f : nat -> world) N : (exists t, T t) -> (forall t, T t -> t <= lim) ->
  f 0%nat = boot 0 (replicate dbs empty_db) (length css) -> (forall n, (n < N)%nat -> happens T (f n) (f (S n))) ->
  (forall i p, peers (f N) !! i = Some p -> exists cs, css !! i = Some cs /\ asks (concat (given (lnk p))) cs) ->
  each one_step css -> each (far_deadlines T lim) css ->
  exists (h : nat -> list deed) st0 st, vacant dbs st0 /\ h 0%nat = [] /\ (forall n, (n < N)%nat -> exists h', h (S n) = h n ++ h') /\
    srv_run st0 (h N) st /\ holds (f N) st /\ Forall (fun e => T (when e)) (h N) /\
    (forall n i p, (n <= N)%nat -> peers (f n) !! i = Some p -> up_to_date p (by_client i (h n))) /\
    (forall n i cs, (n <= N)%nat -> css !! i = Some cs -> exists rest, cs = map fst (by_client i (h n)) ++ rest).
Proof.
  intros Ht HT H0 Hf Ha H1 H2. pose proof (all_along T _ _ _ f N H0 Hf) as A. pose proof (asks_fit css (f N) (A N ltac:(lia)) Ha) as HF.
  destruct (world_in_order T lim 0 (replicate dbs empty_db) css f N Ht HT H1 H2) as (g & g0 & gS & gC & gE); auto.
  { intros d key t Hd _. eapply names_empty; eauto. }
  destruct (path_srv T g N gS) as (h & h0 & hS & hP).
  { rewrite g0. intros d Hd. cbn in Hd. apply elem_of_replicate in Hd as [-> _]. apply inv_empty. }
  assert (B : forall n i, (n <= N)%nat -> (i < length css)%nat -> (g n).2 !! i = Some (by_client i (h n))).
  { intros n i Hn Hi. destruct (hP n Hn) as (_ & _ & _ & Hb). apply (Hb i []). rewrite g0. cbn. rewrite list_lookup_fmap. destruct (lookup_lt_is_Some_2 css i Hi) as [c ->]. reflexivity. }
  assert (L : forall n, (n <= N)%nat -> length (peers (f n)) = length css).
  { induction n as [|n IH]; intros Hn; [rewrite H0; cbn; apply replicate_length|]. destruct (happens_pmove _ _ _ (Hf n ltac:(lia))) as [E _]. rewrite E. apply IH. lia. }
  assert (U : forall n i p, (n <= N)%nat -> peers (f n) !! i = Some p -> up_to_date p (by_client i (h n))).
  { intros n i p Hn Hi. destruct (gC n i p Hn Hi) as (l & Hl & Hc). rewrite B in Hl; [injection Hl as <-; exact Hc|auto|]. rewrite <- (L n Hn). eapply lookup_lt_Some; eauto. }
  destruct (hP N ltac:(lia)) as (R & I & F & _). exists h, (store_of (g 0%nat).1), (store_of (g N).1). split; [|split; [auto|split; [auto|split; [auto|split; [|split; [auto|split; [auto|]]]]]]].
  - rewrite g0. unfold vacant, store_of. cbn. split; [auto|]. split; [rewrite map_length, replicate_length; auto|]. intros M k HM. apply elem_of_list_fmap in HM as (d & -> & Hd).
    apply elem_of_replicate in Hd as [-> _]. unfold stored. cbn. rewrite lookup_empty. reflexivity.
  - destruct gE as (E1 & E2 & E3). unfold holds, store_of. cbn [fst snd]. split; [exact E1|]. split; [rewrite map_length; exact E2|]. intros j c M Hj HM key Hk. rewrite list_lookup_fmap in HM.
    destruct (mdbs (g N).1 !! j) as [d|] eqn:Ed; [|discriminate]. injection HM as <-. destruct (E3 j c d Hj Ed key Hk) as [E4 E5]. unfold stored. rewrite E4, E5. reflexivity.
  - intros n i cs Hn Hi. destruct (lookup_lt_is_Some_2 (peers (f n)) i) as [p Hp]; [rewrite (L n Hn); eapply lookup_lt_Some; eauto|].
    destruct (along T _ _ css f N H0 Hf HF n Hn) as [_ A2]. destruct (A2 i p Hp) as (cs' & rest & Hcs & Hc). rewrite Hi in Hcs. injection Hcs as <-. destruct (U n i p Hn Hp) as [[->|(cmd & r & Hx & ->)] _].
    + unfold handed in Hc. rewrite <- app_assoc in Hc. eauto.
    + unfold handed in Hc. rewrite Hx in Hc. rewrite map_app. cbn. eauto.
Qed.

(** When the goroutines rest, every client has the answers of one history to everything it sent. *)
Theorem whole_rests (T : Z -> Prop) lim dbs css x : (1 <= dbs)%nat -> (exists t, T t) -> (forall t, T t -> t <= lim) ->
  rtc (happens T) (boot 0 (replicate dbs empty_db) (length css)) x -> now_is x = Running -> (forall y, ~ wadvance T x y) -> ~ spins x ->
  (forall i p, peers x !! i = Some p -> stg p <> Away /\ exists cs, css !! i = Some cs /\ asks (concat (given (lnk p))) cs) ->
  each one_step css -> each (far_deadlines T lim) css ->
  exists h st0 st, vacant dbs st0 /\ srv_run st0 h st /\ holds x st /\ Forall (fun e => T (when e)) h /\
    forall i p cs, peers x !! i = Some p -> css !! i = Some cs -> map fst (by_client i h) = cs /\ replied (by_client i h) (written p).
Proof.
  intros Hdb Ht HT R Hrun Hn Hsp Ha H1 H2. destruct (rtc_path _ _ _ R) as (N & f & H0 & HN & Hf).
  destruct (whole T lim dbs css f N Ht HT H0 Hf) as (h & st0 & st & V & _ & _ & Rn & Hh & F & U & _); auto.
  { rewrite HN. intros i p Hi. destruct (Ha i p Hi); auto. }
  rewrite HN in *. exists (h N), st0, st. split; [auto|]. split; [auto|]. split; [auto|]. split; [auto|]. intros i p cs Hi Hcs.
  destruct Ht as [now Hnow]. destruct (world_any_rests T now 0 (replicate dbs empty_db) _ x Hnow ltac:(rewrite replicate_length; lia) R Hrun Hn) as [|W]; [contradiction|].
  destruct (Ha i p Hi) as [Hst (cs' & Hcs' & ks & t & Hr & ->)]. rewrite Hcs in Hcs'. injection Hcs' as ->. destruct (W i p Hi Hst) as [_ W2]. destruct (W2 ks t Hr) as (E1 & E2 & E3).
  specialize (U N i p ltac:(lia)). rewrite HN in U. destruct (U Hi) as [[->|(cmd & r & Hx & _)] _]; [auto|]. destruct E3 as [(E3 & _)|(e & E3 & _)]; congruence.
Qed.
End WithParams.
(** The commands in the bytes, computed by the parser. *)
Lemma commands_over evs t : commands (evs ++ ending_values t) = commands evs.
Proof.
  induction evs as [|ev evs IH]; [destruct t; reflexivity|]. cbn [app commands].
  destruct ev as [d|e]; [|reflexivity]. destruct d; auto. destruct (to_command _); rewrite IH; reflexivity.
Qed.
Lemma asks_parse s cs : asks s cs <-> cs = commands (parse_stream [s]).1.
Proof.
  split.
  - intros (ks & t & H & ->). assert (E : s = concat [s]) by (cbn; rewrite app_nil_r; reflexivity). rewrite E in H. rewrite (grammar_exact _ _ _ H). cbn [fst]. rewrite commands_over. reflexivity.
  - intros ->. destruct (grammar_total s) as (ks & t & H). exists ks, t. split; [exact H|]. assert (E : s = concat [s]) by (cbn; rewrite app_nil_r; reflexivity). rewrite E in H. rewrite (grammar_exact _ _ _ H). cbn [fst]. rewrite commands_over. reflexivity.
Qed.
Lemma asks_fun s cs cs' : asks s cs -> asks s cs' -> cs = cs'.
Proof. rewrite !asks_parse. congruence. Qed.
Lemma asks_unique s : exists cs, asks s cs /\ forall cs', asks s cs' -> cs' = cs.
Proof. eexists. split; [apply asks_parse; reflexivity|]. intros cs'. apply asks_parse. Qed.
