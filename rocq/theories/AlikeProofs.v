(** A client that keeps apart is answered the same in all executions. *)
From Verif Require Export TimelessProofs.

Section Alike.
Context {P : Setup}.
Lemma predictable_timeless n args s m : predictable (n :: args) -> In (s, m) reference -> named n s -> timeless (m args).
Proof.
  intros [H1 H2] Hin Hn. destruct (proj1 (List.Forall_forall _ _) reference_timeless _ Hin) as [Ht|Ht]; cbn [fst snd] in Ht.
  - destruct (H1 s Ht). exists n, args. auto.
  - apply Ht. intros -> i o Hi Ho. apply (H2 ltac:(exists n, args; auto) (S i)); [lia|exact Ho].
Qed.
(** The meaning of such a command. *)
Lemma answers_timeless cmd : predictable cmd -> timeless (answers cmd).
Proof.
  intros Hp. destruct cmd as [|n args]; [split; intros; contradiction|]. split.
  - intros now now' S T g g' r S' T' H1 Hg H2 [(s & m & Hin & Hn & Hm)|[Hno Hm]].
    + left. exists s, m. split; [auto|]. split; [auto|]. eapply (predictable_timeless n args s m); eauto.
    + right. split; [auto|]. eapply (timeless_say (RErr _)); eauto.
  - intros now S g r S' Hu [(s & m & Hin & Hn & Hm)|[Hno Hm]]; [eapply (predictable_timeless n args s m); eauto|eapply (timeless_say (RErr _)); eauto].
Qed.
Lemma answers_det cmd now S gone r1 S1 r2 S2 : predictable cmd -> answers cmd now S gone r1 S1 -> answers cmd now S gone r2 S2 -> r1 = r2 /\ forall k, S1 k = S2 k.
Proof.
  intros [Hp _]. destruct cmd as [|n args]; [intros []|].
  intros [(s & m & Hin & Hn & H1)|[N1 H1]] [(s' & m' & Hin' & Hn' & H2)|[N2 H2]].
  - destruct (one_meaning _ _ _ _ _ Hin Hin' Hn Hn') as [-> ->].
    destruct (proj1 (List.Forall_forall _ _) (reference_det False) _ Hin') as [Ho|Hd]; [destruct (Hp s'); [apply in_app_iff; auto|exists n, args; auto]|]. cbn [fst snd] in Hd.
    refine (Hd _ args _ _ _ _ _ _ _ _ H1 H2); [|intros []]. intros ->. apply (Hp "getrange"%string); [cbn; tauto|exists n, args; auto].
  - destruct (N2 _ _ Hin Hn).
  - destruct (N1 _ _ Hin' Hn').
  - exact (det_say False _ _ _ _ _ _ _ _ ltac:(intros []) H1 H2).
Qed.
Lemma live_undated now e : undate e -> live now e = e.
Proof. intros H. destruct e as [[v [dl|]]|]; auto. discriminate (H _ _ eq_refl). Qed.
Lemma lingers_undated now e : undate e -> lingers now e = false.
Proof. intros H. destruct e as [[v [dl|]]|]; auto. discriminate (H _ _ eq_refl). Qed.
Lemma step_alike now1 M1 cmd r1 M1' now2 M2 r2 M2' : predictable cmd -> undated M1 -> (forall k, M1 k = M2 k) -> (forall k, live now1 (M1' k) = M1' k) -> (forall k, live now2 (M2' k) = M2' k) ->
  ref_step now1 M1 cmd r1 M1' -> ref_step now2 M2 cmd r2 M2' -> r1 = r2 /\ undated M1' /\ forall k, M1' k = M2' k.
Proof.
  intros Hp Hu He L1 L2 (S1 & A1 & K1) (S2 & A2 & K2). destruct (answers_timeless _ Hp) as [C1 C2].
  assert (Hu2 : undated M2) by (intros k v dl; rewrite <- He; apply Hu).
  assert (A1' : answers cmd now2 (fun k => live now2 (M2 k)) (fun k => lingers now2 (M2 k)) r1 S1).
  { eapply C1; [| | |exact A1]; auto; intros k; rewrite ?live_undated, ?lingers_undated; auto; try (intros v dl; apply Hu2); intros v dl; apply Hu. }
  destruct (answers_det _ _ _ _ _ _ _ _ Hp A1' A2) as [-> E]. split; [auto|].
  assert (U1 : undated S1). { eapply C2; [|exact A1]. intros k v dl Hk. rewrite live_undated in Hk; [eauto|]. intros ??; apply Hu. }
  assert (U2 : undated S2) by (intros k v dl; rewrite <- E; apply U1).
  assert (Q1 : forall k, M1' k = S1 k). { intros k. rewrite <- L1. destruct (K1 k) as [-> _]. apply live_undated. intros ??; apply U1. }
  assert (Q2 : forall k, M2' k = S2 k). { intros k. rewrite <- L2. destruct (K2 k) as [-> _]. apply live_undated. intros ??; apply U2. }
  split; [intros k v dl; rewrite Q1; apply U1|]. intros k. rewrite Q1, Q2, E. auto.
Qed.
Lemma deeds_app h h' : deeds (h ++ h') = deeds h ++ deeds h'.
Proof. apply map_app. Qed.
Lemma solo_alike (T1 T2 : Z -> Prop) l1 l2 h1 E1 : (forall t, T1 t -> t <= l1) -> (forall t, T2 t -> t <= l2) -> solo T1 l1 h1 E1 -> forall h2 E2, solo T2 l2 h2 E2 ->
  map fst (deeds h1) = map fst (deeds h2) -> Forall predictable (map fst (deeds h1)) -> deeds h1 = deeds h2 /\ undated (stored E1) /\ forall k, stored E1 k = stored E2 k.
Proof.
  intros B1 B2. induction 1 as [|h1 d1 now1 cmd1 r1 d1' Hs1 IH Ht1 R1 I1 A1]; intros h2 E2 [|h2' d2 now2 cmd2 r2 d2' Hs2 Ht2 R2 I2 A2] Em Hp.
  - split; [auto|]. split; [intros k v dl H; rewrite bare_empty in H; discriminate|auto].
  - exfalso. rewrite deeds_app, map_app in Em. destruct (map fst (deeds h2')); discriminate.
  - exfalso. rewrite deeds_app, map_app in Em. destruct (map fst (deeds h1)); discriminate.
  - rewrite !deeds_app, !map_app in Em. apply app_inj_2 in Em as [Em [= ->]]; [|reflexivity]. rewrite deeds_app, map_app in Hp. apply Forall_app in Hp as [Hp Hc]. apply Forall_cons_1 in Hc as [Hc _].
    destruct (IH h2' d2 Hs2 Em Hp) as (Q1 & Q2 & Q3).
    destruct (step_alike now1 (stored d1) cmd2 r1 (stored d1') now2 (stored d2) r2 (stored d2')) as (-> & U & E); auto.
    { intros k. apply (alive_live T1 l1); auto. } { intros k. apply (alive_live T2 l2); auto. }
    rewrite !deeds_app, Q1. auto.
Qed.
Lemma solo_prefix T l h E : solo T l h E -> forall h1 h2, h = h1 ++ h2 -> exists E1, solo T l h1 E1.
Proof.
  induction 1 as [|h d now cmd r d' Hs IH Ht R I A]; intros h1 h2 E.
  - symmetry in E. apply app_nil in E as [-> ->]. eexists. constructor.
  - destruct h2 as [|e h2 _] using rev_ind; [rewrite app_nil_r in E; subst; eexists; econstructor; eauto|]. rewrite app_assoc in E. apply app_inj_2 in E as [-> _]; [|reflexivity]. eauto.
Qed.
Lemma replied_fun l b1 b2 : replied l b1 -> replied l b2 -> b1 = b2.
Proof.
  intros H. revert b2. induction H as [|l bs cmd r f H IH Hf]; intros b2 H2.
  - inversion H2 as [|l' bs' cmd' r' f' ? ? E]; [auto|]. destruct l'; discriminate.
  - remember (l ++ [(cmd, r)]) as l0 eqn:El. destruct H2 as [|l' bs' cmd' r' f' H' Hf']; [destruct l; discriminate|]. apply app_inj_2 in El as [-> [= -> ->]]; [|reflexivity]. rewrite (IH _ H'). congruence.
Qed.
Lemma replied_prefix l b : replied l b -> forall l1 l2, l = l1 ++ l2 -> exists b1 b2, b = b1 ++ b2 /\ replied l1 b1.
Proof.
  induction 1 as [|l bs cmd r f H IH Hf]; intros l1 l2 E.
  - symmetry in E. apply app_nil in E as [-> ->]. exists [], []. split; [auto|constructor].
  - destruct l2 as [|e l2 _] using rev_ind; [rewrite app_nil_r in E; subst; exists (bs ++ f), []; rewrite app_nil_r; split; [auto|constructor; auto]|].
    rewrite app_assoc in E. apply app_inj_2 in E as [-> _]; [|reflexivity]. destruct (IH l1 l2 eq_refl) as (b1 & b2 & -> & Hb). exists b1, (b2 ++ f). rewrite app_assoc. auto.
Qed.
Lemma split_at {A B} (g : A -> B) l a b : map g l = a ++ b -> exists l1 l2, l = l1 ++ l2 /\ map g l1 = a /\ map g l2 = b.
Proof.
  revert l. induction a as [|x a IH]; intros l E; [exists [], l; auto|]. destruct l as [|y l]; [discriminate|]. injection E as <- E. destruct (IH l E) as (l1 & l2 & -> & <- & <-). exists (y :: l1), l2. auto.
Qed.
(** Two histories of beginnings of the same commands. *)
Lemma solo_chain (T1 T2 : Z -> Prop) l1 l2 h1 E1 h2 E2 b1 b2 : (forall t, T1 t -> t <= l1) -> (forall t, T2 t -> t <= l2) -> solo T1 l1 h1 E1 -> solo T2 l2 h2 E2 ->
  replied (deeds h1) b1 -> replied (deeds h2) b2 -> (exists rest, map fst (deeds h2) = map fst (deeds h1) ++ rest) -> Forall predictable (map fst (deeds h2)) -> exists b, b2 = b1 ++ b.
Proof.
  intros B1 B2 H1 H2 R1 R2 [rest E] Hp. destruct (split_at fst (deeds h2) _ _ E) as (d1 & d2 & Ed & Em & _). unfold deeds in Ed. destruct (split_at (fun e : Z * command * rdata => (e.1.2, e.2)) h2 _ _ Ed) as (g1 & g2 & -> & G1 & G2).
  destruct (solo_prefix _ _ _ _ H2 g1 g2 eq_refl) as [E1' Hg]. rewrite deeds_app, map_app in Hp. apply Forall_app in Hp as [Hp _].
  assert (Dg : deeds g1 = d1) by exact G1. destruct (solo_alike T2 T1 l2 l1 g1 E1' B2 B1 Hg h1 E1 H1) as (Q & _); [rewrite Dg; exact Em|exact Hp|].
  destruct (replied_prefix _ _ R2 (deeds g1) (deeds g2) (deeds_app _ _)) as (c1 & c2 & -> & Rc). rewrite Q in Rc. rewrite (replied_fun _ _ _ R1 Rc). eauto.
Qed.
(** An execution in which client [i] keeps apart. *)
Lemma apart_here (T : Z -> Prop) lim dbs css x i cs p : (1 <= dbs)%nat -> (exists t, T t) -> (forall t, T t -> t <= lim) ->
  rtc (happens T) (boot 0 (replicate dbs empty_db) (length css)) x ->
  (forall i p, peers x !! i = Some p -> exists cs, css !! i = Some cs /\ asks (concat (given (lnk p))) cs) ->
  each locked css -> each (far_deadlines T lim) css -> each (fun cmd => ~ called "select" cmd) css -> css !! i = Some cs -> keeps_apart i css -> peers x !! i = Some p ->
  exists h E rest, solo T lim h E /\ replied (deeds h) (written p) /\ cs = map fst (deeds h) ++ rest.
Proof.
  intros Hdb Ht HT R Ha H1 H2 H3 Hi Hap Hp. destruct (rtc_path _ _ _ R) as (N & f & H0 & HN & Hf). rewrite <- HN in Ha.
  destruct (apart_solo T lim dbs css f N i cs Hdb Ht HT H0 Hf Ha H1 H2 H3 Hi Hap) as (h & h0 & hS & hI). rewrite <- HN in Hp.
  destruct (hI N p ltac:(lia) Hp) as (E & Hso & E1 & E2 & [rest E3] & _). eauto 10.
Qed.
Theorem apart_alike (T1 T2 : Z -> Prop) lim1 lim2 dbs1 dbs2 css1 css2 x1 x2 i1 i2 cs p1 p2 : (1 <= dbs1)%nat -> (1 <= dbs2)%nat -> (exists t, T1 t) -> (exists t, T2 t) -> (forall t, T1 t -> t <= lim1) -> (forall t, T2 t -> t <= lim2) ->
  rtc (happens T1) (boot 0 (replicate dbs1 empty_db) (length css1)) x1 -> rtc (happens T2) (boot 0 (replicate dbs2 empty_db) (length css2)) x2 ->
  (forall i p, peers x1 !! i = Some p -> exists cs, css1 !! i = Some cs /\ asks (concat (given (lnk p))) cs) ->
  (forall i p, peers x2 !! i = Some p -> exists cs, css2 !! i = Some cs /\ asks (concat (given (lnk p))) cs) ->
  each locked css1 -> each locked css2 -> each (far_deadlines T1 lim1) css1 -> each (far_deadlines T2 lim2) css2 -> each (fun cmd => ~ called "select" cmd) css1 -> each (fun cmd => ~ called "select" cmd) css2 ->
  css1 !! i1 = Some cs -> css2 !! i2 = Some cs -> keeps_apart i1 css1 -> keeps_apart i2 css2 -> Forall predictable cs -> peers x1 !! i1 = Some p1 -> peers x2 !! i2 = Some p2 ->
  (exists b, written p2 = written p1 ++ b) \/ (exists b, written p1 = written p2 ++ b).
Proof.
  intros D1 D2 Y1 Y2 B1 B2 R1 R2 A1 A2 L1 L2 F1 F2 S1 S2 I1 I2 K1 K2 Hp P1 P2.
  destruct (apart_here T1 lim1 dbs1 css1 x1 i1 cs p1) as (h1 & E1 & e1 & H1 & Q1 & C1); auto. destruct (apart_here T2 lim2 dbs2 css2 x2 i2 cs p2) as (h2 & E2 & e2 & H2 & Q2 & C2); auto.
  assert (Hp1 : Forall predictable (map fst (deeds h1))) by (rewrite C1 in Hp; apply Forall_app in Hp as [? _]; auto).
  assert (Hp2 : Forall predictable (map fst (deeds h2))) by (rewrite C2 in Hp; apply Forall_app in Hp as [? _]; auto).
  rewrite C1 in C2. apply app_eq_app in C2 as (k & [[E _]|[E _]]).
  - right. eapply (solo_chain T2 T1); eauto.
  - left. eapply (solo_chain T1 T2); eauto.
Qed.
Theorem apart_alike_rests (T1 T2 : Z -> Prop) lim1 lim2 dbs1 dbs2 css1 css2 x1 x2 i1 i2 cs p1 p2 : (1 <= dbs1)%nat -> (1 <= dbs2)%nat -> (exists t, T1 t) -> (exists t, T2 t) -> (forall t, T1 t -> t <= lim1) -> (forall t, T2 t -> t <= lim2) ->
  rtc (happens T1) (boot 0 (replicate dbs1 empty_db) (length css1)) x1 -> rtc (happens T2) (boot 0 (replicate dbs2 empty_db) (length css2)) x2 ->
  now_is x1 = Running -> now_is x2 = Running -> (forall y, ~ wadvance T1 x1 y) -> (forall y, ~ wadvance T2 x2 y) -> ~ spins x1 -> ~ spins x2 ->
  (forall i p, peers x1 !! i = Some p -> exists cs, css1 !! i = Some cs /\ asks (concat (given (lnk p))) cs) ->
  (forall i p, peers x2 !! i = Some p -> exists cs, css2 !! i = Some cs /\ asks (concat (given (lnk p))) cs) ->
  each locked css1 -> each locked css2 -> each (far_deadlines T1 lim1) css1 -> each (far_deadlines T2 lim2) css2 -> each (fun cmd => ~ called "select" cmd) css1 -> each (fun cmd => ~ called "select" cmd) css2 ->
  css1 !! i1 = Some cs -> css2 !! i2 = Some cs -> keeps_apart i1 css1 -> keeps_apart i2 css2 -> Forall predictable cs -> peers x1 !! i1 = Some p1 -> peers x2 !! i2 = Some p2 -> stg p1 <> Away -> stg p2 <> Away ->
  written p1 = written p2.
Proof.
  intros D1 D2 Y1 Y2 B1 B2 R1 R2 N1 N2 W1 W2 Z1 Z2 A1 A2 L1 L2 F1 F2 S1 S2 I1 I2 K1 K2 Hp P1 P2 G1 G2.
  destruct (apart_rests0 T1 lim1 dbs1 css1 x1 i1 cs p1) as (h1 & E1 & H1 & C1 & Q1); auto. destruct (apart_rests0 T2 lim2 dbs2 css2 x2 i2 cs p2) as (h2 & E2 & H2 & C2 & Q2); auto.
  destruct (solo_alike T1 T2 lim1 lim2 h1 E1 B1 B2 H1 h2 E2 H2) as (E & _); [congruence|rewrite C1; auto|]. rewrite E in Q1. eapply replied_fun; eauto.
Qed.
End Alike.
