(** Commands that do not overlap, all of them, with any deadlines: proofs. *)
From Verif Require Export WholeProofs.

Section WithParams.
Context {P : Setup}.

Lemma prim_runs {A} T d (p : prog A) d' p' : prim T d p d' p' -> (forall a, p <> Ret a) /\ forall out, runs T d' p' out -> runs T d p out.
Proof. intros H. split; [intros a ->; inversion H|]. destruct H; intros out R; auto; econstructor; eauto. Qed.
Lemma cstep_runs {A} T (c c' : conf A) : cstep T c c' -> exists i th th', ths c !! i = Some th /\ ths c' = <[i := th']> (ths c) /\
  (forall a, tcode th <> Ret a) /\ forall out, runs T (cdb c') (tcode th') out -> runs T (cdb c) (tcode th) out.
Proof.
  intros H. destruct H; cbn; eexists _, _, _; (split; [eauto|]); (split; [reflexivity|]); cbn; try (split; [discriminate|]; intros out R; first [exact R|constructor; exact R]).
  eapply prim_runs; eauto.
Qed.

(** The world beside the manager [m] that has gone through the history [h]; the clock shows [t] while a command is in execution. *)
Definition core_ok (x : world) (t : Z) (m : manager) (j : nat) (c : conf rdata) (d : db) : Prop :=
  length (ths c) = length (peers x) /\ (cdb c = d \/ exists i p, peers x !! i = Some p /\ runs_on p = Some j) /\
  forall i p th, peers x !! i = Some p -> ths c !! i = Some th ->
    (runs_on p = Some j -> cur m = j /\ exists cmd, hnd (lnk p) = HExec cmd /\ is_select cmd = false /\ forall out, runs (eq t) (cdb c) (tcode th) out -> runs (eq t) d (exec_in_db cmd) out) /\
    (runs_on p <> Some j -> exists r, tcode th = Ret r).
Definition beside (x : world) (t : Z) (h : list deed) (m : manager) : Prop :=
  invs m /\ wsel x = cur m /\ (forall i p, peers x !! i = Some p -> log (lnk p) = by_client i h) /\
  length (wcores x) = length (mdbs m) /\ forall j c d, wcores x !! j = Some c -> mdbs m !! j = Some d -> core_ok x t m j c d.

Lemma beside_time x t t' h m : (executing x -> t' = t) -> beside x t h m -> beside x t' h m.
Proof.
  intros E (I & S & L & C & K). split; [auto|]. split; [auto|]. split; [auto|]. split; [auto|]. intros j c d Hj Hd. destruct (K j c d Hj Hd) as (K1 & K2 & K3). split; [auto|]. split; [auto|].
  intros i p th Hi Ht. destruct (K3 i p th Hi Ht) as [A B]. split; [|exact B]. intros Hr. rewrite (E ltac:(exists i, p; split; [auto|congruence])). auto.
Qed.
(** Steps that touch the connections only. *)
Lemma beside_peers x y t h m : wsel y = wsel x -> wcores y = wcores x -> length (peers y) = length (peers x) ->
  (forall i p p', peers x !! i = Some p -> peers y !! i = Some p' -> log (lnk p') = log (lnk p) /\ runs_on p' = runs_on p /\ (runs_on p <> None -> hnd (lnk p') = hnd (lnk p))) ->
  beside x t h m -> beside y t h m.
Proof.
  intros E1 E2 E3 E4 (I & S & L & C & K). assert (Hb : forall i p', peers y !! i = Some p' -> exists p, peers x !! i = Some p).
  { intros i p' Hi. apply lookup_lt_is_Some_2. rewrite <- E3. eapply lookup_lt_Some; eauto. }
  assert (Hf : forall i p, peers x !! i = Some p -> exists p', peers y !! i = Some p').
  { intros i p Hi. apply lookup_lt_is_Some_2. rewrite E3. eapply lookup_lt_Some; eauto. }
  split; [auto|]. split; [congruence|]. split; [intros i p' Hi; destruct (Hb i p' Hi) as [p Hp]; destruct (E4 i p p' Hp Hi) as (-> & _); auto|]. rewrite E2. split; [auto|].
  intros j c d Hj Hd. destruct (K j c d Hj Hd) as (K1 & K2 & K3). split; [congruence|]. split.
  - destruct K2 as [K2|(i & p & Hi & Hr)]; [auto|]. right. destruct (Hf i p Hi) as [p' Hp']. exists i, p'. split; [auto|]. destruct (E4 i p p' Hi Hp') as (_ & -> & _). auto.
  - intros i p' th Hi Ht. destruct (Hb i p' Hi) as [p Hp]. destruct (E4 i p p' Hp Hi) as (_ & Er & Eh). rewrite Er. destruct (K3 i p th Hp Ht) as [A B]. split; [|exact B]. intros Hr. rewrite Eh by congruence. auto.
Qed.
(** Nobody but [i] executes. *)
Lemma only x i p : all_peers x -> one_at_a_time x -> peers x !! i = Some p -> in_hand p -> forall j q, peers x !! j = Some q -> runs_on q <> None -> j = i.
Proof.
  intros A O Hi Hp j q Hj Hr. apply (O j i q p); auto. destruct (runs_on q) as [k|] eqn:E; [|congruence]. destruct (pv_run _ (A _ _ Hj) k E) as (cmd & Hc & _). exists cmd. auto.
Qed.
(** If nobody executes on the database, its contents are the manager's. *)
Lemma settled x t h m : beside x t h m -> (forall j q, peers x !! j = Some q -> runs_on q = None) -> map cdb (wcores x) = mdbs m.
Proof.
  intros (I & S & L & C & K) Hn. apply list_eq. intros j. rewrite list_lookup_fmap. destruct (wcores x !! j) as [c|] eqn:E.
  - destruct (lookup_lt_is_Some_2 (mdbs m) j) as [d Hd]; [rewrite <- C; eapply lookup_lt_Some; eauto|]. rewrite Hd. destruct (K j c d E Hd) as (_ & [K2|(i & p & Hi & Hr)] & _); [cbn; congruence|].
    rewrite (Hn i p Hi) in Hr. discriminate.
  - symmetry. apply lookup_ge_None. rewrite <- C. apply lookup_ge_None. auto.
Qed.
Lemma by_client_snoc i h e : by_client i (h ++ [e]) = by_client i h ++ (if Nat.eqb (who e) i then [(did e, got e)] else []).
Proof. rewrite by_client_app, by_client_one. reflexivity. Qed.

Lemma beside_step x y t h m : all_peers x -> one_at_a_time x -> beside x t h m -> happens (eq t) x y ->
  exists h' m', beside y t (h ++ h') m' /\ srv_run (store_of m) h' (store_of m') /\ Forall (fun e => when e = t) h'.
Proof.
  intros A O Hb H.
  assert (Same : forall y', wsel y' = wsel x -> wcores y' = wcores x -> length (peers y') = length (peers x) ->
    (forall i p p', peers x !! i = Some p -> peers y' !! i = Some p' -> log (lnk p') = log (lnk p) /\ runs_on p' = runs_on p /\ (runs_on p <> None -> hnd (lnk p') = hnd (lnk p))) ->
    exists h' m', beside y' t (h ++ h') m' /\ srv_run (store_of m) h' (store_of m') /\ Forall (fun e => when e = t) h').
  { intros y' E1 E2 E3 E4. exists [], m. rewrite app_nil_r. split; [eapply beside_peers; eauto|]. split; constructor. }
  assert (Keep : forall p0 : list peer, forall (i : nat) (p p' : peer), p0 !! i = Some p -> p0 !! i = Some p' -> log (lnk p') = log (lnk p) /\ runs_on p' = runs_on p /\ (runs_on p <> None -> hnd (lnk p') = hnd (lnk p))).
  { intros p0 i p p' H1 H2. assert (p' = p) as -> by congruence. auto. }
  destruct H as [H|H]; destruct H; cbn [wsel wcores peers] in *;
    try (apply Same; cbn [wsel wcores peers]; [reflexivity|reflexivity|reflexivity|apply Keep]; fail);
    try (apply Same; cbn [wsel wcores peers]; [reflexivity|reflexivity|apply insert_length|];
      intros i0 p p' Hp Hp'; match goal with H : _ !! _ = Some (mkPeer _ _ _ _) |- _ => destruct (lookup_ins _ _ _ _ _ _ _ H Hp Hp') as [(-> & -> & ->)|(_ & ->)] end; [|auto]; cbn; auto; fail).
  - (* client *) apply Same; cbn [wsel wcores peers]; [reflexivity|reflexivity|apply insert_length|]. intros i0 p p' Hp Hp'. destruct (lookup_ins _ _ _ _ _ _ _ H Hp Hp') as [(-> & -> & ->)|(_ & ->)]; [|auto]. cbn. inversion H1; subst; auto.
  - (* link *) apply Same; cbn [wsel wcores peers]; [reflexivity|reflexivity|apply insert_length|]. intros i0 p p' Hp Hp'. destruct (lookup_ins _ _ _ _ _ _ _ H Hp Hp') as [(-> & -> & ->)|(_ & ->)]; [|auto]. cbn.
    split; [auto|]. split; [auto|]. intros Ho. destruct o as [j|]; [|congruence]. destruct (pv_run _ (A _ _ H) j eq_refl) as (cmd & Hc & _). cbn in Hc. inversion H0; subst; cbn in *; try discriminate; auto. exfalso. eapply log_grows; eauto.
  - (* select *) set (x := mkW sl cs ps sg Running) in *.
    assert (Hn : forall j q, peers x !! j = Some q -> runs_on q = None).
    { intros j q Hj. destruct (runs_on q) eqn:Er; [|reflexivity]. assert (j = i) as -> by (refine (only x i _ A O H _ j q Hj ltac:(congruence)); exists cmd; auto). cbn in Hj. rewrite H in Hj. injection Hj as <-. discriminate. }
    pose proof (settled _ _ _ _ Hb Hn) as Ed. cbn in Ed. destruct Hb as (I & S & L & C & K). cbn in S. assert (Em : mkMgr sl (map cdb cs) = m) by (rewrite Ed, S; destruct m; reflexivity). rewrite Em in *.
    pose proof (mx_select (eq t) m cmd H1) as Hx. destruct (mexec_srv _ _ _ _ _ I Hx) as [Hs I']. exists [mkDeed i t cmd (select m cmd).1], (select m cmd).2. split; [|split].
    + assert (Ed' : mdbs (select m cmd).2 = mdbs m) by apply select_dbs. split; [exact I'|]. split; [reflexivity|]. cbn [peers wcores]. split; [|split].
      * intros k p Hk. rewrite by_client_snoc. cbn [who did got]. apply lookup_upd in Hk as [[<- ->]|[Nk Hk]].
        -- rewrite Nat.eqb_refl. cbn. rewrite <- (L _ _ H). reflexivity.
        -- destruct (Nat.eqb_spec i k); [congruence|]. rewrite app_nil_r. auto.
      * rewrite Ed'. auto.
      * rewrite Ed'. intros j c d Hj Hd. destruct (K j c d Hj Hd) as (K1 & K2 & K3). split; [cbn; rewrite insert_length; exact K1|]. split.
        -- destruct K2 as [K2|(k & q & Hk & Hr)]; [auto|]. rewrite (Hn _ _ Hk) in Hr. discriminate.
        -- intros k q th Hk Ht. assert (Er : runs_on q = None) by (cbn in Hk; apply lookup_upd in Hk as [[<- ->]|[Nk Hk]]; [reflexivity|eapply Hn; eauto]). rewrite Er. split; [discriminate|]. intros _.
           destruct (lookup_lt_is_Some_2 ps k) as [q0 Hq0]; [cbn in Hk; apply lookup_lt_Some in Hk; rewrite insert_length in Hk; auto|]. destruct (K3 k q0 th Hq0 Ht) as [_ B]. apply B. rewrite (Hn _ _ Hq0). discriminate.
    + eapply (sr_snoc _ [] _ (mkDeed i t cmd _)); [constructor|exact Hs].
    + repeat constructor.
  - (* start *) set (x := mkW sl cs ps sg Running) in *.
    assert (Hn : forall j q, peers x !! j = Some q -> runs_on q = None).
    { intros j q Hj. destruct (runs_on q) eqn:Er; [|reflexivity]. assert (j = i) as -> by (refine (only x i _ A O H _ j q Hj ltac:(congruence)); exists cmd; auto). cbn in Hj. rewrite H in Hj. injection Hj as <-. discriminate. }
    pose proof (settled _ _ _ _ Hb Hn) as Ed. cbn in Ed. destruct Hb as (I & S & L & C & K). cbn in S. exists [], m. rewrite app_nil_r. split; [|split; constructor]. split; [auto|]. split; [auto|]. cbn [peers wcores].
    split; [|split; [rewrite insert_length; auto|]].
    + intros k p Hk. apply lookup_upd in Hk as [[<- ->]|[Nk Hk]]; [exact (L _ _ H)|exact (L _ _ Hk)].
    + intros j c' d Hj Hd. apply lookup_upd in Hj as [[<- ->]|[Nj Hj]].
      * destruct (K sl c d H3 Hd) as (K1 & K2 & K3). assert (Ec : cdb c = d) by (destruct K2 as [K2|(k & q & Hk & Hr)]; [auto|rewrite (Hn _ _ Hk) in Hr; discriminate]).
        split; [cbn; rewrite !insert_length; exact K1|]. split; [auto|]. cbn [peers ths cdb]. intros k q th Hk Ht. apply lookup_upd in Hk as [[<- ->]|[Nk Hk]].
        -- rewrite list_lookup_insert in Ht by (rewrite K1; eapply lookup_lt_Some; eauto). injection Ht as <-. cbn. split; [|congruence]. intros _. split; [auto|]. exists cmd. split; [auto|]. split; [auto|]. rewrite Ec. auto.
        -- rewrite list_lookup_insert_ne in Ht by auto. rewrite (Hn _ _ Hk). split; [discriminate|]. intros _. apply (K3 k q th Hk Ht). rewrite (Hn _ _ Hk). discriminate.
      * destruct (K j c' d Hj Hd) as (K1 & K2 & K3). split; [cbn; rewrite insert_length; exact K1|]. split; [destruct K2 as [K2|(k & q & Hk & Hr)]; [auto|rewrite (Hn _ _ Hk) in Hr; discriminate]|].
        cbn [peers]. intros k q th Hk Ht. apply lookup_upd in Hk as [[<- ->]|[Nk Hk]].
        -- cbn. split; [intros [= E]; congruence|]. intros _. apply (K3 i _ th H Ht). discriminate.
        -- apply (K3 k q th Hk Ht).
  - (* run *) set (x := mkW sl cs ps sg Running) in *. destruct Hb as (I & S & L & C & K). exists [], m. rewrite app_nil_r. split; [|split; constructor]. split; [auto|]. split; [auto|]. cbn [peers wcores].
    split; [auto|]. split; [rewrite insert_length; auto|]. destruct (cstep_runs _ _ _ H0) as (i & th & th' & Hi & Et & Hne & Hr).
    intros j' c'' d Hj Hd. apply lookup_upd in Hj as [[<- ->]|[Nj Hj]].
    + destruct (K j c d H Hd) as (K1 & K2 & K3). split; [cbn; rewrite Et, insert_length; exact K1|].
      destruct (lookup_lt_is_Some_2 ps i) as [p Hp]; [cbn in K1; rewrite <- K1; eapply lookup_lt_Some; eauto|]. destruct (K3 i p th Hp Hi) as [B1 B2].
      destruct (decide (runs_on p = Some j)) as [Er|Er]; [|destruct (B2 Er) as [r Hr']; destruct (Hne _ Hr')]. split; [right; exists i, p; auto|].
      destruct (B1 Er) as (B3 & cmd & B4 & B5 & B6). cbn [peers]. rewrite Et. intros k q th0 Hk Ht. apply lookup_upd in Ht as [[<- ->]|[Nk Ht]].
      * assert (q = p) as -> by congruence. split; [|congruence]. intros _. split; [auto|]. exists cmd. split; [auto|]. split; [auto|]. intros out Ho. auto.
      * split; [|apply (K3 k q th0 Hk Ht)]. intros Hq. destruct Nk. symmetry. refine (only x i p A O Hp _ k q Hk ltac:(congruence)). exists cmd. auto.
    + exact (K j' c'' d Hj Hd).
  - (* reply *) set (x := mkW sl cs ps sg Running) in *. destruct Hb as (I & S & L & C & K).
    assert (On : forall k q, peers x !! k = Some q -> runs_on q <> None -> k = i) by (refine (only x i _ A O H _); exists cmd; auto).
    destruct (lookup_lt_is_Some_2 (mdbs m) j) as [d Hd]; [rewrite <- C; eapply lookup_lt_Some; eauto|]. destruct (K j c d H1 Hd) as (K1 & K2 & K3). destruct (K3 i _ _ H H2) as [B _].
    destruct (B eq_refl) as (B1 & cmd' & B2 & B3 & B4). cbn in B2. assert (cmd' = cmd) as -> by congruence. cbn in B4. specialize (B4 _ (R_Ret _ _ _)).
    rewrite <- B1 in Hd. pose proof (mx_done (eq t) m cmd d r (cdb c) B3 Hd B4) as Hx. destruct (mexec_srv _ _ _ _ _ I Hx) as [Hs I'].
    exists [mkDeed i t cmd r], (put_db m (cdb c)). split; [|split].
    + split; [exact I'|]. split; [exact S|]. cbn [peers wcores]. split; [|split].
      * intros k p Hk. rewrite by_client_snoc. cbn [who did got]. apply lookup_upd in Hk as [[<- ->]|[Nk Hk]].
        -- rewrite Nat.eqb_refl. cbn. rewrite <- (L _ _ H). reflexivity.
        -- destruct (Nat.eqb_spec i k); [congruence|]. rewrite app_nil_r. auto.
      * cbn. rewrite insert_length. auto.
      * cbn [put_db mdbs cur]. intros j' c' d' Hj Hd'. assert (Ed : cdb c' = d').
        { apply lookup_upd in Hd' as [[<- ->]|[Nj Hd']].
          - f_equal. congruence.
          - destruct (K j' c' d' Hj Hd') as (_ & [K2'|(k & q & Hk & Hr)] & _); [auto|]. assert (k = i) as -> by (apply (On k q Hk); congruence). cbn in Hk. rewrite H in Hk. injection Hk as <-. cbn in Hr. congruence. }
        destruct (lookup_lt_is_Some_2 (mdbs m) j') as [d0 Hd0]; [apply lookup_lt_Some in Hd'; rewrite insert_length in Hd'; auto|]. destruct (K j' c' d0 Hj Hd0) as (K1' & _ & K3').
        split; [cbn; rewrite insert_length; exact K1'|]. split; [auto|]. cbn [peers]. intros k q th Hk Ht. apply lookup_upd in Hk as [[<- ->]|[Nk Hk]].
        -- cbn. split; [discriminate|]. intros _. destruct (decide (j' = j)) as [->|Nj].
           ++ assert (c' = c) as -> by congruence. exists r. rewrite H2 in Ht. injection Ht as <-. reflexivity.
           ++ apply (K3' i _ th H Ht). cbn. congruence.
        -- assert (Er : runs_on q = None) by (destruct (runs_on q) eqn:Er; [|reflexivity]; destruct Nk; symmetry; apply (On k q Hk); congruence). rewrite Er. split; [discriminate|]. intros _. apply (K3' k q th Hk Ht). congruence.
    + eapply (sr_snoc _ [] _ (mkDeed i t cmd r)); [constructor|exact Hs].
    + repeat constructor.
Qed.

Lemma beside_boot dbs k t : beside (boot 0 (replicate dbs empty_db) k) t [] (mkMgr 0 (replicate dbs empty_db)).
Proof.
  split; [intros d Hd; cbn in Hd; apply elem_of_replicate in Hd as [-> _]; apply inv_empty|]. split; [reflexivity|]. split; [|split].
  - intros i p Hi. cbn in Hi. apply lookup_replicate in Hi as [-> _]. reflexivity.
  - cbn. rewrite map_length. reflexivity.
  - intros j c d Hj Hd. cbn in Hj, Hd. rewrite list_lookup_fmap, Hd in Hj. injection Hj as <-. split; [cbn; rewrite map_length, !replicate_length; reflexivity|]. split; [auto|]. cbn.
    intros i p th Hi Ht. apply lookup_replicate in Hi as [-> _]. cbn. split; [discriminate|]. intros _. rewrite list_lookup_fmap in Ht. destruct (replicate k (Ret Prog.rnil) !! i) as [p0|] eqn:E; [|discriminate]. injection Ht as <-. apply lookup_replicate in E as [-> _]. cbn. eauto.
Qed.

Theorem one_by_one dbs k (f : nat -> world) (clk : nat -> Z) N : f 0%nat = boot 0 (replicate dbs empty_db) k -> (forall n, (n < N)%nat -> f (S n) = f n \/ happens (eq (clk n)) (f n) (f (S n))) ->
  (forall n, (n <= N)%nat -> one_at_a_time (f n)) -> (forall n, (n < N)%nat -> executing (f (S n)) -> clk (S n) = clk n) ->
  exists (h : nat -> list deed) (st : nat -> store), vacant dbs (st 0%nat) /\ h 0%nat = [] /\
    (forall n, (n < N)%nat -> exists h', h (S n) = h n ++ h' /\ srv_run (st n) h' (st (S n)) /\ Forall (fun e => when e = clk n) h') /\
    (forall n i p, (n <= N)%nat -> peers (f n) !! i = Some p -> log (lnk p) = by_client i (h n) /\ replied (by_client i (h n)) (written p) /\
       forall cs, asks (concat (given (lnk p))) cs -> exists rest, cs = map fst (by_client i (h n)) ++ rest) /\
    (forall n, (n <= N)%nat -> ~ executing (f n) -> st n = (wsel (f n), map (fun c => stored (cdb c)) (wcores (f n)))).
Proof.
  intros H0 Hf Ho Hc.
  assert (A : forall n, (n <= N)%nat -> all_peers (f n)).
  { induction n as [|n IH]; intros Hn; [rewrite H0; apply all_peers_boot|]. destruct (Hf n ltac:(lia)) as [->|Hs]; [apply IH; lia|]. eapply all_peers_step; [apply IH; lia|exact Hs]. }
  assert (G : exists (h : nat -> list deed) (m : nat -> manager), m 0%nat = mkMgr 0 (replicate dbs empty_db) /\ h 0%nat = [] /\
    (forall n, (n < N)%nat -> exists h', h (S n) = h n ++ h' /\ srv_run (store_of (m n)) h' (store_of (m (S n))) /\ Forall (fun e => when e = clk n) h') /\
    forall n, (n <= N)%nat -> beside (f n) (clk n) (h n) (m n)).
  { clear - H0 Hf Ho Hc A. induction N as [|N IH].
    - exists (fun _ => []), (fun _ => mkMgr 0 (replicate dbs empty_db)). split; [auto|]. split; [auto|]. split; [intros; lia|]. intros n Hn. assert (n = 0%nat) as -> by lia. rewrite H0. apply beside_boot.
    - destruct IH as (h & m & m0 & h0 & hS & hB); [intros; apply Hf; lia|intros; apply Ho; lia|intros; apply Hc; auto; lia|intros; apply A; lia|].
      assert (Hone : exists h' m', beside (f (S N)) (clk N) (h N ++ h') m' /\ srv_run (store_of (m N)) h' (store_of m') /\ Forall (fun e => when e = clk N) h').
      { destruct (Hf N ltac:(lia)) as [E|Hs]; [|exact (beside_step _ _ _ _ _ (A N ltac:(lia)) (Ho N ltac:(lia)) (hB N ltac:(lia)) Hs)].
        exists [], (m N). rewrite E, app_nil_r. split; [apply hB; lia|]. split; constructor. }
      destruct Hone as (h' & m' & Hb & Hr & Hw).
      exists (fun n => if (n <=? N)%nat then h n else h N ++ h'), (fun n => if (n <=? N)%nat then m n else m'). split; [auto|]. split; [auto|]. split.
      + intros n Hn. destruct (Nat.leb_spec (S n) N), (Nat.leb_spec n N); try lia; [apply hS; lia|]. assert (n = N) as -> by lia. eauto.
      + intros n Hn. destruct (Nat.leb_spec n N); [apply hB; lia|]. assert (n = S N) as -> by lia. eapply beside_time; [|exact Hb]. intros He. apply Hc; [lia|auto]. }
  destruct G as (h & m & m0 & h0 & hS & hB). exists h, (fun n => store_of (m n)). split; [|split; [auto|split; [auto|split]]].
  - rewrite m0. split; [reflexivity|]. split; [cbn; rewrite map_length, replicate_length; reflexivity|]. intros M k0 HM. apply elem_of_list_fmap in HM as (d & -> & Hd).
    apply elem_of_replicate in Hd as [-> _]. unfold stored. cbn. rewrite lookup_empty. reflexivity.
  - intros n i p Hn Hi. destruct (hB n Hn) as (_ & _ & L & _). pose proof (A n Hn i p Hi) as Ip. rewrite <- (L _ _ Hi). split; [auto|]. split; [apply (pv_wire _ Ip)|].
    intros cs (ks & t & Hr & ->). destruct (GramPipe.any_order (lnk p) ks t (pv_reach _ Ip) Hr) as [rest E]. unfold handed in E. rewrite <- app_assoc in E. eauto.
  - intros n Hn He. pose proof (hB n Hn) as Hb. rewrite <- (map_map cdb stored). rewrite (settled _ _ _ _ Hb).
    + destruct Hb as (_ & S & _). rewrite S. reflexivity.
    + intros j q Hj. destruct (runs_on q) eqn:E; [|reflexivity]. destruct He. exists j, q. split; [auto|congruence].
Qed.

Lemma one_boot sl ds k : one_at_a_time (boot sl ds k).
Proof. intros i j p q Hi _ [cmd Hc]. cbn in Hi. apply lookup_replicate in Hi as [-> _]. discriminate. Qed.
Theorem ticking dbs k (f : nat -> Z * world) N : (f 0%nat).2 = boot 0 (replicate dbs empty_db) k -> (forall n, (n < N)%nat -> ticks (f n) (f (S n))) ->
  exists (h : nat -> list deed) (st : nat -> store), vacant dbs (st 0%nat) /\ h 0%nat = [] /\
    (forall n, (n < N)%nat -> exists h', h (S n) = h n ++ h' /\ srv_run (st n) h' (st (S n)) /\ Forall (fun e => when e = (f n).1) h') /\
    (forall n i p, (n <= N)%nat -> peers (f n).2 !! i = Some p -> log (lnk p) = by_client i (h n) /\ replied (by_client i (h n)) (written p) /\
       forall cs, asks (concat (given (lnk p))) cs -> exists rest, cs = map fst (by_client i (h n)) ++ rest) /\
    (forall n, (n <= N)%nat -> ~ executing (f n).2 -> st n = (wsel (f n).2, map (fun c => stored (cdb c)) (wcores (f n).2))).
Proof.
  intros H0 Hf. apply (one_by_one dbs k (fun n => (f n).2) (fun n => (f n).1) N H0).
  - intros n Hn. apply (Hf n Hn).
  - intros [|n] Hn; [rewrite H0; apply one_boot|]. apply (Hf n Hn).
  - intros n Hn. apply (Hf n Hn).
Qed.
(** Any clock. *)
Lemma happens_any t x y : happens (eq t) x y -> happens (fun _ => True) x y.
Proof.
  intros [H|H]; [left; auto|]. right. destruct H; try (econstructor; eauto; fail). eapply W_run; [eauto|].
  destruct H0; try (econstructor; eauto; fail). eapply C_prim; [eauto|]. destruct H1; constructor; auto.
Qed.
Lemma ticks_any a b : rtc ticks a b -> rtc (happens (fun _ => True)) a.2 b.2.
Proof. induction 1 as [|a b c [[E|H] _] _ IH]; [apply rtc_refl|rewrite <- E; exact IH|]. eapply rtc_l; [eapply happens_any; exact H|exact IH]. Qed.
Theorem ticking_rests dbs k a b : (1 <= dbs)%nat -> a.2 = boot 0 (replicate dbs empty_db) k -> rtc ticks a b -> now_is b.2 = Running -> (forall y, ~ wadvance (fun _ => True) b.2 y) -> ~ spins b.2 ->
  exists h st0 st, vacant dbs st0 /\ srv_run st0 h st /\
    forall i p, peers b.2 !! i = Some p -> stg p <> Away -> exists cs, asks (concat (given (lnk p))) cs /\ map fst (by_client i h) = cs /\ replied (by_client i h) (written p).
Proof.
  intros Hdb Ha R Hr Hn Hs. destruct (rtc_path _ _ _ R) as (N & f & H0 & HN & Hf). assert (E : (f 0%nat).2 = boot 0 (replicate dbs empty_db) k) by congruence.
  destruct (ticking dbs k f N E Hf) as (h & st & V & h0 & hS & hL & _).
  assert (G : forall n, (n <= N)%nat -> srv_run (st 0%nat) (h n) (st n)).
  { induction n as [|n IH]; intros Hle; [rewrite h0; constructor|]. destruct (hS n ltac:(lia)) as (h' & -> & Hx & _). eapply srv_run_app; [apply IH; lia|exact Hx]. }
  exists (h N), (st 0%nat), (st N). split; [auto|]. split; [apply G; lia|]. intros i p Hi Hst. pose proof (ticks_any _ _ R) as R'. rewrite Ha in R'.
  destruct (world_any_rests (fun _ => True) 0 0 (replicate dbs empty_db) _ b.2 I ltac:(rewrite replicate_length; lia) R' Hr Hn) as [|W]; [contradiction|].
  destruct (W i p Hi Hst) as [_ W2]. destruct (grammar_total (concat (given (lnk p)))) as (ks & t & Hk). destruct (W2 ks t Hk) as (W3 & _). exists (commands (values None ks)). split; [exists ks, t; auto|].
  rewrite <- HN in Hi. destruct (hL N i p ltac:(lia) Hi) as (L1 & L2 & _). rewrite <- L1 at 1. auto.
Qed.
(** A client alone. *)
Lemma alone_one (x : world) : (length (peers x) <= 1)%nat -> one_at_a_time x.
Proof. intros L i j p q Hi Hj _ _. apply lookup_lt_Some in Hi, Hj. lia. Qed.
Lemma alone_ticks t x y : (length (peers x) <= 1)%nat -> rtc (happens (eq t)) x y -> rtc ticks (t, x) (t, y).
Proof.
  intros L R. revert L. induction R as [x|x y z H R IH]; intros L; [apply rtc_refl|]. assert (L' : (length (peers y) <= 1)%nat) by (destruct (happens_pmove _ _ _ H) as [-> _]; auto).
  eapply rtc_l; [|apply IH; auto]. split; [right; exact H|]. split; [apply alone_one; auto|]. reflexivity.
Qed.
Lemma idle_ticks t t' x : one_at_a_time x -> ~ executing x -> rtc ticks (t, x) (t', x).
Proof. intros O E. apply rtc_once. split; [left; reflexivity|]. split; [exact O|]. intros H. destruct (E H). Qed.
End WithParams.
