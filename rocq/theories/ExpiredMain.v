(** Expired keys beside other commands: the process. *)
From Verif Require Export ExpiredCmds.

Section WithParams.
Context {P : Setup} (T : Z -> Prop) (k : bytes) (t0 : Z) (HT : forall now, T now -> t0 < now).
(** The value of the key may be gone, and then its deadline. *)
Definition overdue (d : db) : Prop := exps d !! k = Some t0 \/ exps d !! k = None /\ dict d !! k = None.
Lemma sees_prim {A} (Q : bool -> A -> Prop) g d (p : prog A) d' p' : prim T d p d' p' -> sees T k t0 Q g p -> overdue d -> (g = true -> dict d !! k = None) ->
  overdue d' /\ (dict d !! k = None -> dict d' !! k = None) /\ exists g', (g' = true -> dict d' !! k = None) /\ sees T k t0 Q g' p'.
Proof.
  intros H HS HK Hg. unfold overdue in *. destruct H; inversion HS; subst; cbn.
  - split; [auto|]. split; [auto|]. exists g. auto.
  - split; [auto|]. split; [auto|]. exists g. auto.
  - split; [auto|]. split; [auto|]. exists g. auto.
  - split; [auto|]. split; [auto|]. exists g. split; auto. match goal with H : forall x, _ -> sees _ _ _ _ _ _ |- _ => apply H end. intros ->. auto.
  - rewrite lookup_insert_ne by auto. split; [auto|]. split; [auto|]. exists g. auto.
  - rewrite lookup_alter_ne by auto. split; [auto|]. split; [auto|]. exists g. auto.
  - match goal with H : forall x, sees _ _ _ _ _ _ |- _ => specialize (H (match dict d !! key with Some _ => true | None => false end)); rename H into HX end.
    destruct (decide (key = k)) as [->|Hn].
    + rewrite lookup_delete. split; [tauto|]. split; [auto|]. exists true. auto.
    + rewrite lookup_delete_ne by auto. split; [auto|]. split; [auto|]. exists g. auto.
  - split; [auto|]. split; [auto|]. exists g. auto.
  - split; [auto|]. split; [auto|]. exists g. auto.
  - split; [auto|]. split; [auto|]. exists g. auto.
  - split; [auto|]. split; [auto|]. match goal with H : forall x, _ -> sees _ _ _ _ _ _ |- _ => specialize (H (exps d !! key)); rename H into HX end.
    destruct (decide (key = k)) as [->|Hn].
    + destruct HK as [E|[E E']]; rewrite E in *; [exists g|exists true]; auto.
    + exists g. split; auto. apply HX. intros; contradiction.
  - rewrite lookup_insert_ne by auto. split; [auto|]. split; [auto|]. exists g. auto.
  - destruct (decide (key = k)) as [->|Hn].
    + rewrite lookup_delete. split; [right; auto|]. split; [auto|]. exists g. auto.
    + rewrite lookup_delete_ne by auto. split; [auto|]. split; [auto|]. exists g. auto.
Qed.
Definition told (d : db) (cmd : command) (q : prog rdata) : Prop := exists g, (g = true -> dict d !! k = None) /\ sees T k t0 (fun _ r => as_missing k cmd r) g q.
Lemma told_prim d q d' q' cmd : prim T d q d' q' -> overdue d -> told d cmd q -> overdue d' /\ (dict d !! k = None -> dict d' !! k = None) /\ told d' cmd q'.
Proof. intros H HK (g & Hg & HS). exact (sees_prim _ _ _ _ _ _ H HS HK Hg). Qed.
Lemma told_later d d' cmd q : (dict d !! k = None -> dict d' !! k = None) -> told d cmd q -> told d' cmd q.
Proof. intros H (g & Hg & HS). exists g. auto. Qed.
Lemma told_lock d cmd pos m (q : prog rdata) : told d cmd (Acq pos m q) \/ told d cmd (Rel pos m q) -> told d cmd q.
Proof. intros [(g & Hg & HS)|(g & Hg & HS)]; inversion HS; subst; exists g; auto. Qed.
Definition XI (x : world) (j : nat) : Prop :=
  forall c, wcores x !! j = Some c -> overdue (cdb c) /\ forall i cmd t, performs x j i cmd -> ths c !! i = Some t -> told (cdb c) cmd (tcode t).
Lemma perf_back sl cs ps sg f cs' sl' sg' f' i p p' j i' cmd : ps !! i = Some p -> busy_of p' = busy_of p \/ busy_of p' = None ->
  performs (mkW sl' cs' (<[i := p']> ps) sg' f') j i' cmd -> performs (mkW sl cs ps sg f) j i' cmd.
Proof.
  intros Hi Hb (q & Hq & Hh & Hr). cbn in Hq. destruct (decide (i = i')) as [<-|Hn].
  - rewrite list_lookup_insert in Hq by (eapply lookup_lt_Some; eauto). injection Hq as <-. unfold busy_of in Hb. rewrite Hh, Hr in Hb. exists p. split; [exact Hi|].
    destruct Hb as [Hb|Hb]; [|discriminate]. destruct (runs_on p), (hnd (lnk p)); try discriminate. injection Hb as -> ->. auto.
  - rewrite list_lookup_insert_ne in Hq by auto. exists q. auto.
Qed.
Lemma xi_same x y j : XI x j -> wcores y = wcores x -> (forall i cmd, performs y j i cmd -> performs x j i cmd) -> XI y j.
Proof. intros HX E HB c Hc. rewrite E in Hc. destruct (HX c Hc) as [H1 H2]. split; auto. intros i cmd t Hp. apply H2. auto. Qed.
Lemma cstep_told x j c c' : MI x -> wcores x !! j = Some c -> cstep T c c' -> overdue (cdb c) -> (forall i cmd t, performs x j i cmd -> ths c !! i = Some t -> told (cdb c) cmd (tcode t)) ->
  overdue (cdb c') /\ forall i cmd t, performs x j i cmd -> ths c' !! i = Some t -> told (cdb c') cmd (tcode t).
Proof.
  intros HM Hj St HK HT2.
  assert (G : exists i0 q q' b', ths c' = <[i0 := mkT q' b']> (ths c) /\ (exists b, ths c !! i0 = Some (mkT q b)) /\ (forall r, q <> Ret r) /\
    (prim T (cdb c) q (cdb c') q' \/ cdb c' = cdb c /\ forall cmd, told (cdb c) cmd q -> told (cdb c) cmd q')).
  { destruct St; cbn; eexists i, _, _, _; (split; [reflexivity|]); (split; [eexists; eassumption|]).
    1: { split; [intros r ->; inversion H0|left; exact H0]. }
    all: split; [discriminate|]; right; split; [reflexivity|]; intros cmd Hc; first [exact Hc|eapply told_lock; left; exact Hc|eapply told_lock; right; exact Hc]. }
  destruct G as (i0 & q & q' & b' & Hc' & (b & Hi0) & Hq & HP). destruct (HM _ _ _ _ Hj Hi0) as [[r Hr]|(p0 & cmd0 & A1 & A2 & A3 & _)]; [destruct (Hq r Hr)|].
  assert (Q0 : performs x j i0 cmd0) by (exists p0; auto). pose proof (HT2 _ _ _ Q0 Hi0) as T0. cbn in T0.
  assert (U : forall cmd, performs x j i0 cmd -> cmd = cmd0). { intros cmd (p1 & B1 & B2 & _). congruence. }
  assert (G : overdue (cdb c') /\ (dict (cdb c) !! k = None -> dict (cdb c') !! k = None) /\ told (cdb c') cmd0 q').
  { destruct HP as [HP|[-> HP]]; [exact (told_prim _ _ _ _ _ HP HK T0)|]. auto. }
  destruct G as (G1 & G2 & G3). split; [exact G1|]. intros i cmd t Hp Ht. rewrite Hc' in Ht. destruct (decide (i0 = i)) as [<-|Hn].
  - rewrite list_lookup_insert in Ht by (eapply lookup_lt_Some; eauto). injection Ht as <-. cbn. rewrite (U _ Hp). exact G3.
  - rewrite list_lookup_insert_ne in Ht by auto. eapply told_later; [exact G2|]. eapply HT2; eauto.
Qed.
Lemma xi_step x y j : all_peers x -> MI x -> XI x j -> happens T x y -> (forall i cmd, performs y j i cmd -> touched cmd k -> reading cmd) -> XI y j.
Proof.
  intros A HM HX [H|H] HR; destruct H; try (refine (xi_same _ _ _ HX _ _); [reflexivity|]; intros i0 cmd0 Hp; exact Hp).
  - refine (xi_same _ _ _ HX _ _); [reflexivity|]. intros i0 cmd0. eapply perf_back; [eassumption|left; reflexivity].
  - refine (xi_same _ _ _ HX _ _); [reflexivity|]. intros i0 cmd0. eapply perf_back; [eassumption|left]. unfold busy_of. cbn. erewrite (busy_client l l') by eassumption. reflexivity.
  - refine (xi_same _ _ _ HX _ _); [reflexivity|]. intros i0 cmd0. eapply perf_back; [eassumption|left; reflexivity].
  - refine (xi_same _ _ _ HX _ _); [reflexivity|]. intros i0 cmd0. eapply perf_back; [eassumption|left; reflexivity].
  - refine (xi_same _ _ _ HX _ _); [reflexivity|]. intros i0 cmd0. eapply perf_back; [eassumption|left]. unfold busy_of. cbn. destruct o as [j1|]; [|reflexivity].
    destruct (pv_run _ (A _ _ H) _ eq_refl) as (cmd1 & E & _). cbn in E. rewrite E. erewrite busy_link by eassumption. reflexivity.
  - refine (xi_same _ _ _ HX _ _); [reflexivity|]. intros i0 cmd0. eapply perf_back; [eassumption|right; reflexivity].
  - intros c0 Hc0. cbn in Hc0.
    assert (U : forall i0 cmd0, i0 <> i -> performs (mkW sl (<[sl:={| cdb := cdb c; lk := lk c; ths := <[i:=mkT (exec_in_db cmd) false]> (ths c) |}]> cs) (<[i:=mkPeer Served l (Some sl) w]> ps) sg Running) j i0 cmd0 ->
      performs (mkW sl cs ps sg Running) j i0 cmd0).
    { intros i0 cmd0 Hn (q & Hq & Hh & Hr). cbn in Hq. rewrite list_lookup_insert_ne in Hq by auto. exists q. auto. }
    destruct (decide (j = sl)) as [->|Hn].
    + rewrite list_lookup_insert in Hc0 by (eapply lookup_lt_Some; eauto). injection Hc0 as <-. destruct (HX c H3) as [X1 X2]. split; [exact X1|]. cbn. intros i0 cmd0 t Hp Ht. destruct (decide (i0 = i)) as [->|Hi].
      * rewrite list_lookup_insert in Ht by (apply lookup_lt_Some in Ht; rewrite insert_length in Ht; auto). injection Ht as <-. cbn. pose proof (HR _ _ Hp) as Hrd.
        destruct Hp as (q & Hq & Hh & Hr). cbn in Hq. rewrite list_lookup_insert in Hq by (eapply lookup_lt_Some; eauto). injection Hq as <-. cbn in Hh. assert (cmd0 = cmd) as -> by congruence.
        exists false. split; [discriminate|]. apply sees_exec; auto.
      * rewrite list_lookup_insert_ne in Ht by auto. eapply X2; [eapply U; eauto|exact Ht].
    + rewrite list_lookup_insert_ne in Hc0 by auto. destruct (HX c0 Hc0) as [X1 X2]. split; [exact X1|]. intros i0 cmd0 t Hp Ht. destruct (decide (i0 = i)) as [->|Hi]; [|eapply X2; [eapply U; eauto|exact Ht]].
      destruct Hp as (q & Hq & Hh & Hr). cbn in Hq. rewrite list_lookup_insert in Hq by (eapply lookup_lt_Some; eauto). injection Hq as <-. cbn in Hr. congruence.
  - intros c0 Hc0. cbn in Hc0. destruct (decide (j = j0)) as [->|Hn].
    + rewrite list_lookup_insert in Hc0 by (eapply lookup_lt_Some; eauto). injection Hc0 as <-. destruct (HX c H) as [X1 X2].
      exact (cstep_told (mkW sl cs ps sg Running) j0 c c' HM H H0 X1 X2).
    + rewrite list_lookup_insert_ne in Hc0 by auto. exact (HX c0 Hc0).
  - refine (xi_same _ _ _ HX _ _); [reflexivity|]. intros i0 cmd0. eapply perf_back; [eassumption|right; reflexivity].
Qed.
Lemma xi_rtc x y j : all_peers x -> MI x -> XI x j -> rtc (happens T) x y -> (forall i cmd, since x y i cmd -> touched cmd k -> reading cmd) -> XI y j.
Proof.
  intros A HM HX R. revert A HM HX. induction R as [x|x z y H R IH]; auto. intros A HM HX HS.
  pose proof (all_peers_step _ _ _ A H) as A'. apply IH; auto; [eapply mi_step; eauto| |intros i cmd Hc; apply (HS i cmd); eapply since_later; eauto].
  apply (xi_step x z j A HM HX H). intros i cmd Hp. apply (HS i cmd). eapply since_later; [exact H|]. eapply performs_since; eauto.
Qed.
Lemma xi_start x j c : MI x -> wcores x !! j = Some c -> exps (cdb c) !! k = Some t0 -> (forall i cmd, performs x j i cmd -> ~ touched cmd k) -> XI x j.
Proof.
  intros HM Hj He HN c0 Hc0. assert (c0 = c) as -> by congruence. split; [left; exact He|]. intros i cmd t Hp Ht. exists false. split; [discriminate|].
  assert (D : ~ touched cmd k) by (eapply HN; eauto).
  assert (Q : forall r, as_missing k cmd r).
  { intros r n key args s a -> <- Hi Hn. exfalso. apply D. left. unfold key_args. unfold named in Hn. rewrite Hn. revert Hi. clear. unfold absent_replies. cbn [In].
    intros Hi. repeat (destruct Hi as [[= <- <-]|Hi]; [match goal with |- context [keykind_of ?x] => let r := eval vm_compute in (keykind_of x) in change (keykind_of x) with r end; cbn; left|]). destruct Hi. }
  destruct (HM _ _ _ _ Hj Ht) as [[r ->]|(p0 & cmd0 & A1 & A2 & A3 & A4)]; [constructor; apply Q|].
  destruct Hp as (p1 & B1 & B2 & B3). assert (cmd0 = cmd) as -> by congruence.
  eapply (may_sees _ _ _ _ _ (fun _ r => as_missing k cmd r)); [intros; apply Q|exact A4| |exact D]. intros [H _]. apply D. left. exact H.
Qed.
End WithParams.
Section Whole.
Context {P : Setup}.
Theorem expired_invisible (T T' : Z -> Prop) sl ds n x y j c c' k t0 : rtc (happens T) (boot sl ds n) x -> rtc (happens T') x y -> (forall now, T' now -> t0 < now) ->
  wcores x !! j = Some c -> wcores y !! j = Some c' -> exps (cdb c) !! k = Some t0 ->
  (forall i cmd, performs x j i cmd -> ~ touched cmd k) -> (forall i cmd, since x y i cmd -> touched cmd k -> reading cmd) ->
  (exps (cdb c') !! k = Some t0 \/ exps (cdb c') !! k = None /\ dict (cdb c') !! k = None) /\
  forall i cmd r b, performs y j i cmd -> ths c' !! i = Some (mkT (Ret r) b) -> as_missing k cmd r.
Proof.
  intros R R' HT Hj Hj' He HN HS. destruct (reach _ _ _ _ _ R) as [A HM].
  pose proof (xi_rtc T' k t0 HT x y j A HM (xi_start T' k t0 x j c HM Hj He HN) R' HS) as HX. destruct (HX _ Hj') as [H1 H2]. split; [exact H1|].
  intros i cmd r b Hp Ht. destruct (H2 _ _ _ Hp Ht) as (g & _ & HG). cbn in HG. inversion HG; auto.
Qed.
End Whole.
