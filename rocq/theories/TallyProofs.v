(** Executions that differ in counters only. *)
From Verif Require Export TallyProg StaleMain SpecTally.

Section WithParams.
Context {P : Setup}.
Definition like_d (d e : db) : Prop := dict e = dict d /\ exps e = exps d.
Definition like_t {A} (t u : thread A) : Prop := ann u = ann t /\ eqc (tcode t) (tcode u).
Definition like_c (c c' : conf rdata) : Prop := like_d (cdb c) (cdb c') /\ lk c' = lk c /\ Forall2 like_t (ths c) (ths c').
Definition like_w (x x' : world) : Prop :=
  wsel x' = wsel x /\ peers x' = peers x /\ signal x' = signal x /\ now_is x' = now_is x /\ Forall2 like_c (wcores x) (wcores x').
Lemma like_d_sym d e : like_d d e -> like_d e d.
Proof. intros [H1 H2]. split; auto. Qed.
Lemma like_t_sym {A} (t u : thread A) : like_t t u -> like_t u t.
Proof. intros [H1 H2]. split; auto. apply eqc_sym. auto. Qed.
Lemma like_c_sym c c' : like_c c c' -> like_c c' c.
Proof. intros (H1 & H2 & H3). split; [apply like_d_sym; auto|]. split; auto. apply Forall2_flip. eapply Forall2_impl; [exact H3|]. intros t u H. apply like_t_sym. exact H. Qed.
Lemma like_w_sym x x' : like_w x x' -> like_w x' x.
Proof. intros (H1 & H2 & H3 & H4 & H5). split; auto. split; auto. split; auto. split; auto. apply Forall2_flip. eapply Forall2_impl; [exact H5|]. intros c c' H. apply like_c_sym. exact H. Qed.
Lemma child_irrefl {A} (p : prog A) : ~ child p p.
Proof. intros H. induction (child_wf p) as [p _ IH]. eauto. Qed.

Lemma prim_sim {A} T d (p : prog A) d' p' e q : prim T d p d' p' -> like_d d e -> eqc p q -> exists e' q', prim T e q e' q' /\ like_d d' e' /\ eqc p' q' /\ (p' = p <-> q' = q).
Proof.
  intros H [E1 E2] Q. destruct H; inversion Q; subst; (eexists _, _; split; [constructor; unfold seg_keys in *; rewrite ?E1; eauto|]; split; [split; cbn; congruence|]; split; [rewrite ?E1, ?E2; auto|]);
    try reflexivity; (split; intros Hp; exfalso); match type of Hp with ?a = ?b => apply (child_irrefl b); rewrite <- Hp at 1; constructor end.
Qed.
Lemma insert_same {A} (l : list A) i x y : l !! i = Some x -> <[i := y]> l = l <-> y = x.
Proof.
  intros H. split; [|intros ->; apply list_insert_id; auto]. intros E. apply (f_equal (fun l => l !! i)) in E. rewrite list_lookup_insert, H in E by (eapply lookup_lt_Some; eauto). congruence.
Qed.
Lemma cstep_sim T c c1 e : cstep T c c1 -> like_c c e -> exists e1, cstep T e e1 /\ like_c c1 e1 /\ (ths c1 = ths c <-> ths e1 = ths e).
Proof.
  intros H (L1 & L2 & L3). destruct e as [de Le te]. cbn [cdb lk ths] in *.
  destruct H as [d L ts i p d' p' Hi Hp|d L ts i pos k n Hi HL|d L ts i pos k n Hi HL|d L ts i pos k Hi HL|d L ts i pos k n b Hi HL|d L ts i pos k n b Hi HL]; cbn [cdb lk ths] in *; subst Le;
    destruct (Forall2_lookup_l _ _ _ _ _ L3 Hi) as ([q a] & Hi' & [Ha Q]); cbn [ann tcode] in Ha, Q; subst a.
  { destruct (prim_sim T d p d' p' de q Hp L1 Q) as (e' & q' & Hq & Hd & Hq' & Hs). exists (mkC e' L (<[i := mkT q' false]> te)). split; [apply (C_prim T de L te i q); auto|].
    split; [split; [exact Hd|]; split; [reflexivity|]; apply Forall2_insert; auto; split; auto|]. cbn [ths]. rewrite (insert_same _ _ _ _ Hi), (insert_same _ _ _ _ Hi').
    split; intros E; f_equal; apply Hs; congruence. }
  all: inversion Q as [| | | | | | | | | | | | | | |? ? ? k' Q'|? ? ? k' Q']; subst.
  all: (eexists; split; [solve [eapply C_rlock; eauto|eapply C_announce; eauto|eapply C_wlock; eauto|eapply C_runlock; eauto|eapply C_wunlock; eauto]|]).
  all: (split; [split; [exact L1|]; split; [reflexivity|]; apply Forall2_insert; auto; split; auto|]).
  all: cbn [ths]; rewrite (insert_same _ _ _ _ Hi), (insert_same _ _ _ _ Hi'); (split; intros E; exfalso); try discriminate E.
  all: match type of E with mkT ?a _ = mkT ?b _ => assert (E' : a = b) by congruence; apply (child_irrefl b); rewrite <- E' at 1; constructor end.
Qed.
Lemma select_like sl (cs cs' : list (conf rdata)) cmd : length cs' = length cs ->
  (select (mkMgr sl (map cdb cs')) cmd).1 = (select (mkMgr sl (map cdb cs)) cmd).1 /\ cur (select (mkMgr sl (map cdb cs')) cmd).2 = cur (select (mkMgr sl (map cdb cs)) cmd).2.
Proof.
  intros E. assert (Ez : zlen (map cdb cs') = zlen (map cdb cs)) by (unfold zlen; rewrite !map_length, E; reflexivity). unfold select. cbn [mdbs]. rewrite Ez. clear.
  destruct cmd as [|a [|b [|]]]; try (split; reflexivity).
  destruct (atoi (str b)) as [z|]; [|split; reflexivity]. match goal with |- context [if ?b then _ else _] => destruct b end; split; reflexivity.
Qed.
Lemma start_like c e i cmd : like_c c e -> cmd_is "keys" cmd = false ->
  like_c (mkC (cdb c) (lk c) (<[i := mkT (exec_in_db cmd) false]> (ths c))) (mkC (cdb e) (lk e) (<[i := mkT (exec_in_db cmd) false]> (ths e))).
Proof. intros (L1 & L2 & L3) H. split; auto. split; auto. cbn [ths]. apply Forall2_insert; auto. split; [reflexivity|exact (blind_exec cmd H)]. Qed.
Lemma wstep_sim T x y x' : no_keys_asked x -> wstep T x y -> like_w x x' -> exists y', wstep T x' y' /\ like_w y y' /\ ((map ths (wcores y) = map ths (wcores x) <-> map ths (wcores y') = map ths (wcores x')) \/ peers y <> peers x).
Proof.
  intros NK H (E1 & E2 & E3 & E4 & E5). destruct x' as [sl' cs' ps' sg' nw']. cbn [wsel wcores peers signal now_is] in *.
  destruct H; cbn [wsel wcores peers signal now_is] in *; subst sl' ps' sg' nw'.
  - eexists. split; [eapply W_accept; eassumption|]. split; [split; auto|left; cbn [wcores]; split; auto].
  - eexists. split; [eapply W_serve; eassumption|]. split; [split; auto|left; cbn [wcores]; split; auto].
  - eexists. split; [eapply W_exit; eassumption|]. split; [split; auto|left; cbn [wcores]; split; auto].
  - eexists. split; [eapply W_link; eassumption|]. split; [split; auto|left; cbn [wcores]; split; auto].
  - eexists. split; [eapply W_parser_panic; eassumption|]. split; [split; auto|left; cbn [wcores]; split; auto].
  - eexists. split; [eapply W_value_panic; eassumption|]. split; [split; auto|left; cbn [wcores]; split; auto].
  - destruct (select_like sl cs cs' cmd) as [S1 S2]; [symmetry; eapply Forall2_length; eauto|].
    eexists. split; [eapply W_select; eauto; rewrite S1; eauto|]. split; [|left; cbn [wcores]; split; auto]. split; [exact S2|]. split; [cbn; rewrite S1; auto|]. auto.
  - destruct (Forall2_lookup_l _ _ _ _ _ E5 H3) as (e & He & Le). eexists. split; [eapply W_start; eauto|]. split.
    + split; auto. split; auto. split; auto. split; auto. cbn [wcores]. apply Forall2_insert; auto. apply start_like; auto. eapply (NK i); [exact H|]. cbn. apply in_handed. auto.
    + right. intros E. apply (f_equal (fun l => l !! i)) in E. cbn in E. rewrite list_lookup_insert, H in E by (eapply lookup_lt_Some; eauto). discriminate E.
  - eexists. split; [eapply W_empty_panic; eassumption|]. split; [split; auto|left; cbn [wcores]; split; auto].
  - destruct (Forall2_lookup_l _ _ _ _ _ E5 H) as (e & He & Le). destruct (cstep_sim T c c' e H0 Le) as (e1 & S1 & S2 & S3). eexists. split; [eapply W_run; eauto|]. split.
    + split; auto. split; auto. split; auto. split; auto. cbn [wcores]. apply Forall2_insert; auto.
    + left. cbn [wcores]. rewrite !list_fmap_insert. assert (G1 : map ths cs !! j = Some (ths c)) by (rewrite list_lookup_fmap, H; auto).
      assert (G2 : map ths cs' !! j = Some (ths e)) by (rewrite list_lookup_fmap, He; auto). rewrite (insert_same _ _ _ _ G1), (insert_same _ _ _ _ G2). exact S3.
  - destruct (Forall2_lookup_l _ _ _ _ _ E5 H1) as (e & He & (L1 & L2 & L3)). destruct (Forall2_lookup_l _ _ _ _ _ L3 H2) as ([q a] & Hq & [Ha Q]). cbn in Ha, Q. subst a. inversion Q; subst.
    eexists. split; [eapply W_reply; eauto|]. split; [split; auto|left; cbn [wcores]; split; auto].
  - destruct (Forall2_lookup_l _ _ _ _ _ E5 H1) as (e & He & (L1 & L2 & L3)). destruct (Forall2_lookup_l _ _ _ _ _ L3 H2) as ([q a] & Hq & [Ha Q]). cbn in Ha, Q. subst a. inversion Q; subst.
    eexists. split; [eapply W_reply_panic; eauto|]. split; [split; auto|left; cbn [wcores]; split; auto].
  - destruct (Forall2_lookup_l _ _ _ _ _ E5 H) as (e & He & (L1 & L2 & L3)). destruct (Forall2_lookup_l _ _ _ _ _ L3 H0) as ([q a] & Hq & [Ha Q]). cbn in Ha, Q. subst a. inversion Q; subst.
    eexists. split; [eapply W_panic; eauto|]. split; [split; auto|left; cbn [wcores]; split; auto].
Qed.
Lemma outside_sim x y x' : outside x y -> like_w x x' -> exists y', outside x' y' /\ like_w y y'.
Proof.
  intros H (E1 & E2 & E3 & E4 & E5). destruct x' as [sl' cs' ps' sg' nw']. cbn [wsel wcores peers signal now_is] in *.
  destruct H; cbn [wsel wcores peers signal now_is] in *; subst; (eexists; split; [first [eapply O_connect; eassumption|eapply O_client; eassumption|apply O_signal]|split; auto]).
Qed.
Lemma misled_sim x y x' : no_keys_asked x -> misled x y -> like_w x x' -> exists y', misled x' y' /\ like_w y y'.
Proof.
  intros NK H (E1 & E2 & E3 & E4 & E5). destruct x' as [sl' cs' ps' sg' nw']. cbn [wsel wcores peers signal now_is] in *.
  destruct H; cbn [wsel wcores peers signal now_is] in *; subst. destruct (Forall2_lookup_l _ _ _ _ _ E5 H3) as (e & He & Le). eexists. split; [eapply M_start; eauto|].
  split; auto. split; auto. split; auto. split; auto. cbn [wcores]. apply Forall2_insert; auto. apply start_like; auto. eapply (NK i); [exact H|]. cbn. apply in_handed. auto.
Qed.
Lemma races_follow T x y x' : no_keys_asked x -> races T x y -> like_w x x' -> exists y', races T x' y' /\ like_w y y'.
Proof.
  intros NK [[H|H]|H] L.
  - destruct (outside_sim x y x' H L) as (y' & H1 & H2). exists y'. split; auto. left. left. auto.
  - destruct (wstep_sim T x y x' NK H L) as (y' & H1 & H2 & _). exists y'. split; auto. left. right. auto.
  - destruct (misled_sim x y x' NK H L) as (y' & H1 & H2). exists y'. split; auto. right. auto.
Qed.
Lemma miscounts_follow T x y x' : miscounts x y -> like_w x x' -> exists y', races T x' y' /\ like_w y y'.
Proof.
  intros H (E1 & E2 & E3 & E4 & E5). destruct x' as [sl' cs' ps' sg' nw']. cbn [wsel wcores peers signal now_is] in *.
  destruct H; cbn [wsel wcores peers signal now_is] in *; subst. destruct (Forall2_lookup_l _ _ _ _ _ E5 H) as (e & He & (L1 & L2 & L3)). destruct (Forall2_lookup_l _ _ _ _ _ L3 H0) as ([q a] & Hq & [Ha Q]).
  cbn in Ha, Q. subst a. inversion Q; subst. destruct e as [de Le te]. cbn [cdb lk ths] in *.
  eexists. split; [left; right; eapply W_run; [exact He|]; eapply C_prim; [exact Hq|apply P_CntLoad]|].
  split; auto. split; auto. split; auto. split; auto. cbn [wcores]. apply Forall2_insert; auto. split; auto. split; auto. cbn [ths]. apply Forall2_insert; auto. split; [reflexivity|cbn [tcode]; auto].
Qed.
(** ** Of the executions themselves *)
Lemma miscounts_peers x y : miscounts x y -> peers y = peers x.
Proof. destruct 1. reflexivity. Qed.
Lemma muddles_peers T x y : lens x /\ all_peers x -> muddles T x y -> lens y /\ all_peers y.
Proof.
  intros [S1 S2] [H|H].
  - split; [apply (len_happens T x y S1 H)|]. destruct H as [H|H]; [eapply all_peers_step; eauto|apply (misled_less T x y S1 S2 H)].
  - destruct H. split; [|exact S2]. intros j' c' Hj. cbn [wcores peers] in *. apply list_lookup_insert_Some in Hj as [(-> & <- & _)|[_ Hj]]; [|apply (S1 j' c' Hj)].
    cbn. rewrite insert_length. apply (S1 j' c H).
Qed.
Lemma asked_back T x y : lens x /\ all_peers x -> muddles T x y -> no_keys_asked y -> no_keys_asked x.
Proof.
  intros [S1 S2] [[H|H]|H] NK.
  - exact (handed_back (fun _ cmd => cmd_is "keys" cmd = false) T x y S2 H NK).
  - destruct (moved_start T x y S1 H) as (j & _ & _ & _ & St & _). exact (handed_back (fun _ cmd => cmd_is "keys" cmd = false) T (moved j x) (moved j y) S2 (or_intror St) NK).
  - intros i p cmd Hi. apply (NK i). rewrite (miscounts_peers x y H). exact Hi.
Qed.
Lemma muddles_inv T sl ds n x : (sl < length ds)%nat -> rtc (muddles T) (boot sl ds n) x -> lens x /\ all_peers x.
Proof.
  intros Hsl R. assert (G : forall x y, rtc (muddles T) x y -> lens x /\ all_peers x -> lens y /\ all_peers y) by (induction 1 as [|? ? ? St _ IH]; auto; intros; apply IH; eapply muddles_peers; eauto).
  apply (G _ _ R). split; [apply boot_sized; auto|apply all_peers_boot].
Qed.
Lemma diag {A} (R : A -> A -> Prop) (l : list A) : (forall x, x ∈ l -> R x x) -> Forall2 R l l.
Proof. induction l as [|x l IH]; constructor; [apply H; left|apply IH; intros; apply H; right; auto]. Qed.
Lemma boot_like sl ds n : like_w (boot sl ds n) (boot sl ds n).
Proof.
  split; auto. split; auto. split; auto. split; auto. unfold boot. cbn [wcores]. apply diag. intros c Hc. apply elem_of_list_fmap in Hc as (d & -> & _). split; [split; auto|]. split; auto.
  unfold start. cbn [ths]. apply diag. intros p Hp. apply elem_of_list_fmap in Hp as (q & -> & Hq). apply elem_of_replicate in Hq as [-> _]. split; [reflexivity|cbn; constructor].
Qed.
Theorem tally_like T sl ds n x : (sl < length ds)%nat -> rtc (muddles T) (boot sl ds n) x -> no_keys_asked x -> exists x', rtc (races T) (boot sl ds n) x' /\ like_w x x'.
Proof.
  intros Hsl R. pattern x. refine (rtc_ind_r _ (boot sl ds n) _ _ x R); [|clear x R; intros x y R St IH].
  - intros _. exists (boot sl ds n). split; [apply rtc_refl|apply boot_like].
  - intros NK. pose proof (muddles_inv T sl ds n x Hsl R) as I1. pose proof (asked_back T x y I1 St NK) as NK'. destruct (IH NK') as (x' & R' & L).
    destruct St as [St|St]; [destruct (races_follow T x y x' NK' St L) as (y' & S' & L')|destruct (miscounts_follow T x y x' St L) as (y' & S' & L')]; exists y'; split; auto; eapply rtc_r; eauto.
Qed.
Lemma like_same x x' : like_w x x' -> same_but_counts x x'.
Proof. intros (H1 & H2 & H3 & H4 & H5). split; auto. split; auto. split; auto. split; auto. eapply Forall2_impl; [exact H5|]. intros c c' ((? & ?) & ? & ?). auto. Qed.
Lemma like_asked x x' : like_w x x' -> no_keys_asked x -> no_keys_asked x'.
Proof. intros (_ & H2 & _) H i p cmd. rewrite H2. apply H. Qed.
Lemma like_rests T x x' : like_w x x' -> no_keys_asked x -> (forall y, ~ wadvance T x y) -> forall y, ~ wadvance T x' y.
Proof.
  intros L NK Hn y' [St Hd]. destruct (wstep_sim T x' y' x (like_asked _ _ L NK) St (like_w_sym _ _ L)) as (y & Sy & Ly & Hs). apply (Hn y). split; auto.
  destruct L as (L1 & L2 & L3 & L4 & L5). destruct Ly as (M1 & M2 & M3 & M4 & M5).
  destruct Hd as [Hd|[Hd|Hd]]; [left; congruence| |right; right; congruence].
  destruct Hs as [Hs|Hs]; [right; left; rewrite Hs in Hd; exact Hd|left; congruence].
Qed.
End WithParams.
