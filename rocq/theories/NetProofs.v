(** The concurrent server is linearizable. *)
From Verif Require Export SpecNet LinMain.

Section WithParams.
Context {P : Setup} (T : Z -> Prop).

(** ** Turns, labelled with the connection and the database *)
Inductive mstep : nat * option nat -> alone -> alone -> Prop :=
| MS_sel i m logs log cmd now : logs !! i = Some log -> T now -> is_select cmd = true ->
    mstep (i, None) (m, logs) ((select m cmd).2, <[i := log ++ [(cmd, (select m cmd).1)]]> logs)
| MS_db i m logs log cmd d now r d' : logs !! i = Some log -> T now -> is_select cmd = false -> mdbs m !! cur m = Some d ->
    step now d cmd (Done r d') -> mstep (i, Some (cur m)) (m, logs) (put_db m d', <[i := log ++ [(cmd, r)]]> logs).
Inductive msteps : list (nat * option nat) -> alone -> alone -> Prop :=
| MS_nil z : msteps [] z z
| MS_cons e l z z1 z2 : mstep e z z1 -> msteps l z1 z2 -> msteps (e :: l) z z2.
Lemma mstep_mturn e z z' : mstep e z z' -> mturn T z z'.
Proof.
  intros [i m logs log cmd now H1 H2 H3|i m logs log cmd d now r d' H1 H2 H3 H4 H5].
  - econstructor; [exact H1|exact H2|]. apply mx_select. exact H3.
  - econstructor; [exact H1|exact H2|]. eapply mx_done; eauto.
Qed.
Lemma msteps_rtc l z z' : msteps l z z' -> rtc (mturn T) z z'.
Proof. induction 1; [apply rtc_refl|]. eapply rtc_l; eauto using mstep_mturn. Qed.
Lemma msteps_app l z z1 l' z2 : msteps l z z1 -> msteps l' z1 z2 -> msteps (l ++ l') z z2.
Proof. induction 1; intros; auto. simpl. econstructor; eauto. Qed.
Lemma msteps_one e z z' : mstep e z z' -> msteps [e] z z'.
Proof. intros. econstructor; eauto. constructor. Qed.

(** Steps that leave alone database [j] and the connections in [Q]. *)
Definition avoids (j : nat) (Q : nat -> Prop) (e : nat * option nat) : Prop := e.2 <> Some j /\ ~ Q e.1.
Lemma select_dbs m cmd : mdbs (select m cmd).2 = mdbs m.
Proof. unfold select. repeat (case_match; auto). Qed.
Lemma mstep_const j Q e z z' : mstep e z z' -> avoids j Q e -> mdbs z'.1 !! j = mdbs z.1 !! j /\ forall i, Q i -> z'.2 !! i = z.2 !! i.
Proof.
  intros [i m logs log cmd now H1 H2 H3|i m logs log cmd d now r d' H1 H2 H3 H4 H5] [Ha Hb]; cbn in *.
  - rewrite select_dbs. split; auto. intros i' Hi'. apply list_lookup_insert_ne. congruence.
  - split; [apply list_lookup_insert_ne; congruence|]. intros i' Hi'. apply list_lookup_insert_ne. congruence.
Qed.
Lemma msteps_const j Q l z z' : msteps l z z' -> Forall (avoids j Q) l -> mdbs z'.1 !! j = mdbs z.1 !! j /\ forall i, Q i -> z'.2 !! i = z.2 !! i.
Proof.
  induction 1 as [z|e l z z1 z2 H1 _ IH]; intros HF; auto. inversion HF; subst. destruct (mstep_const _ _ _ _ _ H1 H2) as [E1 E2]. destruct IH as [E3 E4]; auto.
  split; [congruence|]. intros i Hi. rewrite E4, E2; auto.
Qed.
(** Contents [D] for database [j] and log [L] for connection [i]. *)
Definition put_at (i j : nat) (D : db) (L : list (command * rdata)) (z : alone) : alone :=
  (mkMgr (cur z.1) (<[j := D]> (mdbs z.1)), <[i := L]> z.2).
Lemma mstep_put i j D L (Q : nat -> Prop) e z z' : mstep e z z' -> avoids j Q e -> Q i -> mstep e (put_at i j D L z) (put_at i j D L z').
Proof.
  intros [i' m logs log cmd now H1 H2 H3|i' m logs log cmd d now r d' H1 H2 H3 H4 H5] [Ha Hb] Hi; unfold put_at; cbn in *.
  - assert (i' <> i) by congruence. rewrite list_insert_commute by auto.
    assert (Es : select (mkMgr (cur m) (<[j := D]> (mdbs m))) cmd = ((select m cmd).1, mkMgr (cur (select m cmd).2) (<[j := D]> (mdbs (select m cmd).2)))).
    { unfold select. cbn. unfold zlen. rewrite insert_length. repeat (case_match; auto). }
    pose proof (MS_sel i' (mkMgr (cur m) (<[j := D]> (mdbs m))) (<[i := L]> logs) log cmd now) as HS. rewrite Es in HS. cbn in HS.
    apply HS; auto. rewrite list_lookup_insert_ne by auto. exact H1.
  - assert (i' <> i) by congruence. assert (cur m <> j) by congruence. rewrite (list_insert_commute logs) by auto.
    assert (Ep : mkMgr (cur m) (<[j := D]> (<[cur m := d']> (mdbs m))) = put_db (mkMgr (cur m) (<[j := D]> (mdbs m))) d').
    { unfold put_db. cbn. rewrite list_insert_commute by auto. reflexivity. }
    rewrite Ep. apply (MS_db i' (mkMgr (cur m) (<[j := D]> (mdbs m))) (<[i := L]> logs) log cmd d now r d'); auto.
    + rewrite list_lookup_insert_ne by auto. exact H1.
    + cbn. rewrite list_lookup_insert_ne by auto. exact H4.
Qed.
Lemma msteps_put i j D L (Q : nat -> Prop) l z z' : msteps l z z' -> Forall (avoids j Q) l -> Q i -> msteps l (put_at i j D L z) (put_at i j D L z').
Proof. induction 1; intros HF Hi; [constructor|]. inversion HF; subst. econstructor; [eapply mstep_put; eauto|]. auto. Qed.

(** ** The path *)
Section Path.
Variable (f : nat -> server) (z0 : alone).
(** The command that connection [i] has in execution on database [j] has not been executed in the reference. *)
Definition pending (x : server) (z : alone) (j i : nat) : Prop :=
  exists s cmd, sess x !! i = Some s /\ busy s = Some (cmd, j) /\ z.2 !! i = Some (answered s).
Record PI (N : nat) (g : nat -> alone) (tr : nat -> list (nat * option nat)) : Prop := mkPI {
  p_0 : g 0%nat = z0;
  p_path : forall n, (n < N)%nat -> msteps (tr n) (g n) (g (S n));
  p_ok : forall n, (n <= N)%nat -> caught_up (f n) (g n);
  p_cur : cur (g N).1 = sel (f N);
  p_anchor : forall j, (exists i, pending (f N) (g N) j i) -> exists n0, (1 <= n0 <= N)%nat /\ cur (g n0).1 = j /\
    (forall n i, (n0 <= n <= N)%nat -> pending (f N) (g N) j i -> sess (f n) !! i = sess (f N) !! i) /\
    (forall n, (n0 <= n < N)%nat -> Forall (avoids j (pending (f N) (g N) j)) (tr n)) }.
Lemma path_const N g tr n0 j Q : (forall n, (n < N)%nat -> msteps (tr n) (g n) (g (S n))) -> (forall n, (n0 <= n < N)%nat -> Forall (avoids j Q) (tr n)) ->
  forall n, (n0 <= n <= N)%nat -> mdbs (g n).1 !! j = mdbs (g N).1 !! j /\ forall i, Q i -> (g n).2 !! i = (g N).2 !! i.
Proof.
  intros Hp Ha n Hn. remember (N - n)%nat as k eqn:E. revert n E Hn. induction k as [|k IH]; intros n E Hn; [assert (n = N) as -> by lia; auto|].
  destruct (IH (S n)) as [H1 H2]; [lia|lia|]. destruct (msteps_const j Q _ _ _ (Hp n ltac:(lia)) (Ha n ltac:(lia))) as [H3 H4].
  split; [congruence|]. intros i Hi. rewrite <- H2, H4; auto.
Qed.
(** The command in execution is executed in the reference, at a point when its database was selected. *)
Lemma pi_exec N g tr i s cmd j D now r D' : PI N g tr -> sess (f N) !! i = Some s -> busy s = Some (cmd, j) -> (g N).2 !! i = Some (answered s) ->
  is_select cmd = false -> mdbs (g N).1 !! j = Some D -> T now -> step now D cmd (Done r D') ->
  exists g' tr', PI N g' tr' /\ g' N = put_at i j D' (answered s ++ [(cmd, r)]) (g N).
Proof.
  intros [P0 Pp Po Pc Pa] Hs Hb Hl Hsel HD Hnow Hst.
  assert (Hpend : pending (f N) (g N) j i) by (exists s, cmd; auto).
  destruct (Pa j) as (n0 & Hn0 & Hcur & Hsess & Hav); [eauto|].
  pose proof (path_const N g tr n0 j _ Pp Hav) as Hconst.
  set (L := answered s ++ [(cmd, r)]). set (g' := fun n => if (n <? n0)%nat then g n else put_at i j D' L (g n)).
  set (tr' := fun n => if (S n =? n0)%nat then tr n ++ [(i, Some j)] else tr n).
  assert (Elo : forall n, (n < n0)%nat -> g' n = g n) by (intros n Hn; unfold g'; destruct (Nat.ltb_spec n n0); auto; lia).
  assert (Ehi : forall n, (n0 <= n)%nat -> g' n = put_at i j D' L (g n)) by (intros n Hn; unfold g'; destruct (Nat.ltb_spec n n0); auto; lia).
  assert (Htr : forall n, S n <> n0 -> tr' n = tr n) by (intros n Hn; unfold tr'; destruct (Nat.eqb_spec (S n) n0); auto; congruence).
  assert (Hpd : forall j' i', pending (f N) (g' N) j' i' -> pending (f N) (g N) j' i' /\ i' <> i).
  { intros j' i' (s' & cmd' & H1 & H2 & H3). rewrite Ehi in H3 by lia. cbn in H3. destruct (decide (i' = i)) as [->|Hn].
    - exfalso. rewrite list_lookup_insert in H3 by (eapply lookup_lt_Some; eauto). assert (s' = s) as -> by congruence.
      injection H3 as H3. apply (f_equal length) in H3. unfold L in H3. rewrite app_length in H3. cbn in H3. lia.
    - split; auto. exists s', cmd'. rewrite list_lookup_insert_ne in H3 by auto. auto. }
  exists g', tr'. split; [|apply Ehi; lia]. constructor.
  - rewrite Elo by lia. exact P0.
  - intros n Hn. destruct (decide (S n < n0)%nat) as [H1|H1].
    + rewrite !Elo by lia. rewrite Htr by lia. auto.
    + destruct (decide (S n = n0)) as [H2|H2].
      * rewrite Elo by lia. rewrite Ehi by lia. unfold tr'. rewrite H2, Nat.eqb_refl. eapply msteps_app; [rewrite <- H2; apply Pp; auto|].
        apply msteps_one. destruct (Hconst n0 ltac:(lia)) as [E1 E2]. specialize (E2 i Hpend). rewrite Hl in E2. rewrite HD in E1.
        destruct (g n0) as [m logs] eqn:Eg. cbn in *. subst j. unfold put_at. cbn. change (mkMgr (cur m) (<[cur m := D']> (mdbs m))) with (put_db m D'). unfold L. eapply MS_db; eauto.
      * rewrite !Ehi by lia. rewrite Htr by auto. eapply msteps_put; [apply Pp; auto|apply Hav; lia|exact Hpend].
  - intros n Hn. destruct (decide (n < n0)%nat) as [H1|H1]; [rewrite Elo by auto; auto|]. rewrite Ehi by lia. destruct (Po n Hn) as [Hlen Hc].
    split; [cbn; rewrite insert_length; exact Hlen|]. intros i' s' Hs'. destruct (decide (i' = i)) as [->|Hne].
    + rewrite (Hsess n i) in Hs' by (auto; lia). assert (s' = s) as -> by congruence. exists L. split.
      * cbn. apply list_lookup_insert. rewrite Hlen. rewrite <- (Hsess n i) in Hs by (auto; lia). eapply lookup_lt_Some; eauto.
      * right. exists cmd, j, r. auto.
    + destruct (Hc i' s' Hs') as (log & H2 & H3). exists log. split; auto. cbn. rewrite list_lookup_insert_ne by auto. exact H2.
  - rewrite Ehi by lia. exact Pc.
  - intros j' (i' & Hi'). destruct (decide (j' = j)) as [->|Hj].
    + exists n0. split; auto. split; [rewrite Ehi by lia; exact Hcur|]. split.
      * intros n i2 Hn Hi2. apply Hsess; auto. apply Hpd; auto.
      * intros n Hn. rewrite Htr by lia. eapply List.Forall_impl; [|apply Hav; auto]. intros e [H1 H2]. split; auto. intros H3. apply H2, Hpd, H3.
    + destruct (Pa j') as (n1 & Hn1 & Hcur1 & Hsess1 & Hav1); [exists i'; apply Hpd; auto|].
      exists n1. split; auto. split; [unfold g'; destruct (n1 <? n0)%nat; exact Hcur1|]. split.
      * intros n i2 Hn Hi2. apply Hsess1; auto. apply Hpd; auto.
      * intros n Hn. assert (HF : Forall (avoids j' (pending (f N) (g' N) j')) (tr n)).
        { eapply List.Forall_impl; [|apply Hav1; auto]. intros e [H1 H2]. split; auto. intros H3. apply H2, Hpd, H3. }
        unfold tr'. destruct (S n =? n0)%nat; auto. apply Forall_app. split; auto. constructor; [|constructor]. split; cbn; [congruence|].
        intros H3. apply Hpd in H3. tauto.
Qed.
(** One more state. *)
Lemma pi_next N g tr z' l : PI N g tr -> msteps l (g N) z' -> caught_up (f (S N)) z' -> cur z'.1 = sel (f (S N)) ->
  (forall j i, j <> cur z'.1 -> pending (f (S N)) z' j i -> pending (f N) (g N) j i /\ sess (f (S N)) !! i = sess (f N) !! i) ->
  (forall j, j <> cur z'.1 -> Forall (avoids j (pending (f (S N)) z' j)) l) ->
  exists g' tr', PI (S N) g' tr' /\ g' (S N) = z'.
Proof.
  intros [P0 Pp Po Pc Pa] Hl Hc Hcur Hpd Hav.
  set (g' := fun n => if (n <=? N)%nat then g n else z'). set (tr' := fun n => if (n <? N)%nat then tr n else l).
  assert (Elo : forall n, (n <= N)%nat -> g' n = g n) by (intros n Hn; unfold g'; destruct (Nat.leb_spec n N); auto; lia).
  assert (Ehi : g' (S N) = z') by (unfold g'; destruct (Nat.leb_spec (S N) N); auto; lia).
  assert (Tlo : forall n, (n < N)%nat -> tr' n = tr n) by (intros n Hn; unfold tr'; destruct (Nat.ltb_spec n N); auto; lia).
  assert (Thi : tr' N = l) by (unfold tr'; rewrite Nat.ltb_irrefl; auto).
  exists g', tr'. split; auto. constructor.
  - rewrite Elo by lia. exact P0.
  - intros n Hn. destruct (decide (n = N)) as [->|Hne].
    + rewrite Ehi, Elo, Thi by lia. exact Hl.
    + rewrite !Elo, Tlo by lia. apply Pp. lia.
  - intros n Hn. destruct (decide (n = S N)) as [->|Hne]; [rewrite Ehi; exact Hc|]. rewrite Elo by lia. apply Po. lia.
  - rewrite Ehi. exact Hcur.
  - rewrite Ehi. intros j (i & Hi). destruct (decide (j = cur z'.1)) as [->|Hj].
    + exists (S N). split; [lia|]. split; [rewrite Ehi; auto|]. split; [|intros; lia]. intros n i' Hn _. assert (n = S N) as -> by lia. auto.
    + destruct (Pa j) as (n0 & Hn0 & Hc0 & Hs0 & Hav0); [exists i; apply Hpd; auto|]. exists n0. split; [lia|]. split; [rewrite Elo by lia; exact Hc0|]. split.
      * intros n i' Hn Hp. destruct (Hpd j i' Hj Hp) as [Hp1 Hp2]. destruct (decide (n = S N)) as [->|Hne]; auto. rewrite Hp2. apply Hs0; auto. lia.
      * intros n Hn. destruct (decide (n = N)) as [->|Hne]; [rewrite Thi; apply Hav; auto|]. rewrite Tlo by lia.
        eapply List.Forall_impl; [|apply Hav0; lia]. intros e [H1 H2]. split; auto. intros H3. apply H2. apply Hpd; auto.
Qed.
End Path.
End WithParams.
