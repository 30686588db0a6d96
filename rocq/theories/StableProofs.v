(** Values do not change under a goroutine that works on them. *)
From Verif Require Export SpecStable ConcProofs SerialProofs.

Section WithParams.
Context {P : Setup} (T : Z -> Prop) (I : nat -> Prop).
Definition goodi (c : conf (list rdata)) (hs : list lstate) : Prop :=
  good true true c hs /\ forall i t h, I i -> ths c !! i = Some t -> hs !! i = Some h -> Wf.wf (fun _ => True) false true Idle h (tcode t).
Definition kept (i : nat) (c c' : conf (list rdata)) (h h' : lstate) : Prop :=
  h' = h \/ (ths c' !! i <> ths c !! i /\ exists t p m k, ths c !! i = Some t /\ ths c' !! i = Some (mkT k false) /\ ((tcode t = Acq p m k /\ lstep h p m true h') \/ (tcode t = Rel p m k /\ lstep h p m false h'))).
Lemma lstep_det h p m b h1 h2 : lstep h p m b h1 -> lstep h p m b h2 -> h1 = h2.
Proof. intros H1 H2. destruct H1; inversion H2; subst; auto. Qed.
Lemma moved_not (c : conf (list rdata)) T0 c' j t t' : cstep T0 c c' -> ths c !! j = Some t -> ths c' = <[j := t']> (ths c) -> tlt t' t -> ths c' !! j <> ths c !! j.
Proof. intros H Hj Hc Ht E. rewrite Hc, list_lookup_insert in E by (eapply lookup_lt_Some; eauto). rewrite Hj in E. injection E as ->. eapply tlt_irrefl; eauto. Qed.
Lemma goodi_upd d0 L0 (ts : list (thread (list rdata))) hs j p' b' d' L' h1 : goodi (mkC d0 L0 ts) hs -> good true true (mkC d' L' (<[j := mkT p' b']> ts)) (<[j := h1]> hs) ->
  (I j -> Wf.wf (fun _ => True) false true Idle h1 p') -> goodi (mkC d' L' (<[j := mkT p' b']> ts)) (<[j := h1]> hs).
Proof.
  intros [G Hg] G' Hw. split; auto. cbn in *. intros i t h Hi Ht Hh. apply lookup_upd in Ht as [[-> ->]|[Hn Ht]].
  - apply lookup_upd in Hh as [[_ ->]|[? _]]; [|congruence]. cbn. auto.
  - rewrite list_lookup_insert_ne in Hh by auto. eauto.
Qed.
Lemma goodi_step c c' hs : goodi c hs -> cstep T c c' -> exists hs', goodi c' hs' /\ forall i h, hs !! i = Some h -> exists h', hs' !! i = Some h' /\ kept i c c' h h'.
Proof.
  intros [G Hg] H. pose proof H as Hstep.
  destruct H as [d L ts j p d' p' Hj Hp|d L ts j pos k n Hj HL|d L ts j pos k n Hj HL|d L ts j pos k Hj HL|d L ts j pos k n b Hj HL|d L ts j pos k n b Hj HL]; cbn in Hg.
  - exists hs. split; [|intros i h Hh; exists h; split; auto; left; auto]. split; [eapply good_prim; eauto|]. cbn. intros i t h Hi Ht Hh. apply lookup_upd in Ht as [[-> ->]|[Hn Ht]]; [|eauto].
    cbn. eapply wf_prim; [eapply (Hg _ _ _ Hi Hj Hh)|exact Hp].
  - destruct (get_h _ _ _ _ j _ G Hj) as (h & Hh & W1 & W2 & W3). cbn in W1. destruct (wf_inv_acq _ _ _ _ _ _ _ W1) as (h1 & Hl & Hw). exists (<[j := h1]> hs). split.
    + eapply goodi_upd; [split; eauto|eapply good_lock; eauto; cbn; eauto|]. intros Hi. specialize (Hg _ _ _ Hi Hj Hh). cbn in Hg. destruct (wf_inv_acq _ _ _ _ _ _ _ Hg) as (h2 & Hl2 & Hw2).
      rewrite (lstep_det _ _ _ _ _ _ Hl Hl2). auto.
    + intros i h0 Hh0. destruct (decide (j = i)) as [->|Hn].
      * exists h1. split; [apply list_lookup_insert; eapply lookup_lt_Some; eauto|]. right. assert (h0 = h) as -> by congruence. split; [|eexists _, pos, MR, k; split; [exact Hj|split; [apply list_lookup_insert; eapply lookup_lt_Some; eauto|left; auto]]].
        eapply moved_not; [exact Hstep|exact Hj|reflexivity|left; constructor].
      * exists h0. rewrite list_lookup_insert_ne by auto. split; auto. left; auto.
  - exists hs. split; [|intros i h Hh; exists h; split; auto; left; auto]. split; [eapply good_announce; eauto|]. cbn. intros i t h Hi Ht Hh. apply lookup_upd in Ht as [[-> ->]|[Hn Ht]]; [|eauto].
    cbn. exact (Hg _ _ _ Hi Hj Hh).
  - destruct (get_h _ _ _ _ j _ G Hj) as (h & Hh & W1 & W2 & W3). cbn in W1. destruct (wf_inv_acq _ _ _ _ _ _ _ W1) as (h1 & Hl & Hw). exists (<[j := h1]> hs). split.
    + eapply goodi_upd; [split; eauto|eapply good_lock; eauto; cbn; eauto|]. intros Hi. specialize (Hg _ _ _ Hi Hj Hh). cbn in Hg. destruct (wf_inv_acq _ _ _ _ _ _ _ Hg) as (h2 & Hl2 & Hw2).
      rewrite (lstep_det _ _ _ _ _ _ Hl Hl2). auto.
    + intros i h0 Hh0. destruct (decide (j = i)) as [->|Hn].
      * exists h1. split; [apply list_lookup_insert; eapply lookup_lt_Some; eauto|]. right. assert (h0 = h) as -> by congruence. split; [|eexists _, pos, MW, k; split; [exact Hj|split; [apply list_lookup_insert; eapply lookup_lt_Some; eauto|left; auto]]].
        eapply moved_not; [exact Hstep|exact Hj|reflexivity|left; constructor].
      * exists h0. rewrite list_lookup_insert_ne by auto. split; auto. left; auto.
  - destruct (get_h _ _ _ _ j _ G Hj) as (h & Hh & W1 & W2 & W3). cbn in W1. destruct (wf_inv_rel _ _ _ _ _ _ _ W1) as (h1 & Hl & Hw). exists (<[j := h1]> hs). split.
    + eapply goodi_upd; [split; eauto|eapply good_unlock; eauto; cbn; eauto|]. intros Hi. specialize (Hg _ _ _ Hi Hj Hh). cbn in Hg. destruct (wf_inv_rel _ _ _ _ _ _ _ Hg) as (h2 & Hl2 & Hw2).
      rewrite (lstep_det _ _ _ _ _ _ Hl Hl2). auto.
    + intros i h0 Hh0. destruct (decide (j = i)) as [->|Hn].
      * exists h1. split; [apply list_lookup_insert; eapply lookup_lt_Some; eauto|]. right. assert (h0 = h) as -> by congruence. split; [|eexists _, pos, MR, k; split; [exact Hj|split; [apply list_lookup_insert; eapply lookup_lt_Some; eauto|right; auto]]].
        eapply moved_not; [exact Hstep|exact Hj|reflexivity|left; constructor].
      * exists h0. rewrite list_lookup_insert_ne by auto. split; auto. left; auto.
  - destruct (get_h _ _ _ _ j _ G Hj) as (h & Hh & W1 & W2 & W3). cbn in W1. destruct (wf_inv_rel _ _ _ _ _ _ _ W1) as (h1 & Hl & Hw). exists (<[j := h1]> hs). split.
    + eapply goodi_upd; [split; eauto|eapply good_unlock; eauto; cbn; eauto|]. intros Hi. specialize (Hg _ _ _ Hi Hj Hh). cbn in Hg. destruct (wf_inv_rel _ _ _ _ _ _ _ Hg) as (h2 & Hl2 & Hw2).
      rewrite (lstep_det _ _ _ _ _ _ Hl Hl2). auto.
    + intros i h0 Hh0. destruct (decide (j = i)) as [->|Hn].
      * exists h1. split; [apply list_lookup_insert; eapply lookup_lt_Some; eauto|]. right. assert (h0 = h) as -> by congruence. split; [|eexists _, pos, MW, k; split; [exact Hj|split; [apply list_lookup_insert; eapply lookup_lt_Some; eauto|right; auto]]].
        eapply moved_not; [exact Hstep|exact Hj|reflexivity|left; constructor].
      * exists h0. rewrite list_lookup_insert_ne by auto. split; auto. left; auto.
Qed.
Lemma goodi_start d cs : (forall i, I i -> no_setnx cs i) -> exists hs, goodi (clients d cs) hs.
Proof.
  intros Hn. destruct (good_clients_start true true d cs) as [hs G]; [intros ? ? ? ?; auto|]. exists (map (fun _ => Idle) (map client cs)). split.
  - apply good_start. apply Forall_forall. intros p Hp. apply elem_of_list_In, elem_of_list_fmap in Hp as (cmds & -> & _). apply wf_client. auto.
  - intros i t h Hi Ht Hh. rewrite list_lookup_fmap in Hh. unfold clients, start in Ht. cbn in Ht. rewrite list_lookup_fmap in Ht. rewrite list_lookup_fmap in Ht, Hh.
    destruct (cs !! i) as [cmds|] eqn:E; [|discriminate]. cbn in *. injection Ht as <-. injection Hh as <-. cbn. apply wf_client. intros cmd Hc. rewrite (Hn i Hi cmds cmd E Hc). split; [discriminate|auto].
Qed.
Lemma goodi_steps c c' : rtc (cstep T) c c' -> forall hs, goodi c hs -> exists hs', goodi c' hs'.
Proof. induction 1 as [c|c c1 c' Hs _ IH]; intros hs G; [eauto|]. destruct (goodi_step _ _ _ G Hs) as (hs1 & G1 & _). eauto. Qed.

(** ** Keeping the lock *)
Definition locks (m : mode) (key : bytes) (h : lstate) : Prop := exists l, h = Grow m l /\ lockpos key ∈ l.
Lemma locks_held m key h : locks m key h -> held m (lockpos key) h = 1%nat.
Proof. intros (l & -> & Hl). cbn. rewrite decide_True; auto. Qed.
Lemma kept_locks i m key c c' h h' (Q : thread (list rdata) -> Prop) : (forall t, releases t -> Q t) -> but_for T i Q c c' -> kept i c c' h h' -> locks m key h -> locks m key h'.
Proof.
  intros HQ [_ Hb] [->|(Hm & t & p & m' & k & Ht & _ & [[E Hl]|[E Hl]])] (l & -> & Hi); [exists l; auto| |].
  - inversion Hl; subst. eexists. split; [reflexivity|]. apply elem_of_app. auto.
  - destruct Hb as [Hb|Hb]; [congruence|]. destruct (Hb t Ht). apply HQ. unfold releases. rewrite E. exact Logic.I.
Qed.
Lemma path_locks i m key (Q : thread (list rdata) -> Prop) c c' : (forall t, releases t -> Q t) -> rtc (but_for T i Q) c c' -> forall hs h, goodi c hs -> hs !! i = Some h -> locks m key h ->
  exists hs' h', goodi c' hs' /\ hs' !! i = Some h' /\ locks m key h'.
Proof.
  intros HQ. induction 1 as [c|c c1 c' Hs _ IH]; intros hs h G Hh Hl; [eauto 10|]. destruct (goodi_step _ _ _ G (proj1 Hs)) as (hs1 & G1 & H1). destruct (H1 i h Hh) as (h1 & Hh1 & Hk).
  eapply IH; eauto. eapply kept_locks; eauto.
Qed.
Lemma read_locks i c hs t h key : I i -> goodi c hs -> ths c !! i = Some t -> hs !! i = Some h -> reads_value key t -> exists m, locks m key h.
Proof.
  intros Hi [G Hg] Ht Hh Hr. specialize (Hg i t h Hi Ht Hh). unfold reads_value in Hr. destruct (tcode t) eqn:E; try tauto. subst. inversion Hg; subst. match goal with H : _ \/ _ |- _ => destruct H as [(m & l & -> & Hl)|[_ ?]]; [exists m, l; auto|discriminate] end.
Qed.
Lemma write_locks i c hs t h key : goodi c hs -> ths c !! i = Some t -> hs !! i = Some h -> writes_value key t -> locks MW key h.
Proof.
  intros [G Hg] Ht Hh Hr. destruct (get_h _ _ _ _ _ _ G Ht) as (h0 & Hh0 & W & _). assert (h0 = h) as -> by congruence. unfold writes_value in Hr. destruct (tcode t) eqn:E; try tauto; subst; inversion W; subst; match goal with H : canwrite _ _ |- _ => exact H end.
Qed.
Lemma get_hi i c hs t : goodi c hs -> ths c !! i = Some t -> exists h, hs !! i = Some h.
Proof. intros [G _] Ht. destruct (get_h _ _ _ _ _ _ G Ht) as (h & Hh & _). eauto. Qed.
(** Someone who updates the value before the next release holds its lock for writing all the time. *)
Lemma update_locks i key c c' hs h t t' : I i -> goodi c hs -> hs !! i = Some h -> ths c !! i = Some t -> reads_value key t \/ writes_value key t ->
  rtc (but_for T i releases) c c' -> ths c' !! i = Some t' -> writes_value key t \/ writes_value key t' -> locks MW key h.
Proof.
  intros Hi G Hh Ht Hrw R Ht' Hw. assert (L : exists m, locks m key h).
  { destruct Hrw as [Hr|Hr]; [eapply read_locks; eauto|exists MW; eapply write_locks; eauto]. }
  destruct Hw as [Hw|Hw]; [eapply write_locks; eauto|]. destruct L as [m L]. destruct (path_locks i m key releases c c' (fun _ H => H) R hs h G Hh L) as (hs' & h' & G' & Hh' & (l & -> & _)).
  destruct (write_locks i c' hs' t' _ key G' Ht' Hh' Hw) as (l' & E & _). injection E as -> _. exact L.
Qed.

(** ** No change by others *)
Lemma step_stable i key m c c' hs h (Q : thread (list rdata) -> Prop) : (forall t, writes_value key t -> Q t) -> goodi c hs -> hs !! i = Some h -> locks m key h -> but_for T i Q c c' ->
  dict (cdb c') !! key = dict (cdb c) !! key.
Proof.
  intros HQ [G _] Hh Hl [H Hb]. pose proof H as Hstep. destruct H as [d L ts j p d' p' Hj Hp| | | | |]; cbn; auto. destruct (decide (j = i)) as [->|Hn].
  - assert (Hw : ~ writes_value key (mkT p false) \/ ths (mkC d' L (<[i := mkT p' false]> ts)) !! i = ts !! i) by (destruct Hb as [Hb|Hb]; [right; exact Hb|left; intros Hw; exact (Hb _ Hj (HQ _ Hw))]).
    destruct Hp; cbn; auto; (destruct Hw as [Hw|Hw]; [|exfalso; eapply moved_not; [exact Hstep|exact Hj|reflexivity|left; constructor|exact Hw]]); unfold writes_value in Hw; cbn in Hw;
      rewrite ?lookup_insert_ne, ?lookup_alter_ne, ?lookup_delete_ne by congruence; auto.
  - destruct (get_h _ _ _ _ _ _ G Hj) as (h' & Hh' & W). assert (Hx : ~ writes_value key (mkT p false)).
    { intros Hw. eapply (exclusive _ _ _ _ j i h' h m (lockpos key) G Hn Hh' Hh); [eapply write_held; eauto|apply locks_held; auto]. }
    unfold writes_value in Hx. destruct Hp; cbn in *; auto; rewrite ?lookup_insert_ne, ?lookup_alter_ne, ?lookup_delete_ne by congruence; auto.
Qed.
Lemma path_stable i key m c c' : rtc (but_for T i (fun t => releases t \/ writes_value key t)) c c' -> forall hs h, goodi c hs -> hs !! i = Some h -> locks m key h ->
  dict (cdb c') !! key = dict (cdb c) !! key.
Proof.
  induction 1 as [c|c c1 c' Hs _ IH]; intros hs h G Hh Hl; auto. destruct (goodi_step _ _ _ G (proj1 Hs)) as (hs1 & G1 & H1). destruct (H1 i h Hh) as (h1 & Hh1 & Hk).
  rewrite (IH _ _ G1 Hh1) by (eapply kept_locks; [|exact Hs|exact Hk|exact Hl]; cbn; auto). eapply step_stable; [|exact G|exact Hh|exact Hl|exact Hs]. cbn; auto.
Qed.
End WithParams.

Section Theorems.
Context {P : Setup}.
Lemma reached T d cs c : rtc (cstep T) (clients d cs) c -> exists hs, goodi (no_setnx cs) c hs.
Proof. intros R. destruct (goodi_start (no_setnx cs) d cs) as [hs G]; [auto|]. eapply goodi_steps; eauto. Qed.
Lemma stable T d cs c c' i t key : no_setnx cs i -> rtc (cstep T) (clients d cs) c -> ths c !! i = Some t -> reads_value key t ->
  rtc (but_for T i (fun t => releases t \/ writes_value key t)) c c' -> dict (cdb c') !! key = dict (cdb c) !! key.
Proof.
  intros Hi R Ht Hr Rb. destruct (reached _ _ _ _ R) as [hs G]. destruct (get_hi _ i c hs t G Ht) as [h Hh]. destruct (read_locks T _ i c hs t h key Hi G Ht Hh Hr) as [m L].
  eapply path_stable; eauto.
Qed.
Lemma writer_first T d cs i j c0 c1 c2 t0 t2 u key : no_setnx cs i -> no_setnx cs j -> i <> j -> rtc (cstep T) (clients d cs) c0 -> ths c0 !! i = Some t0 -> reads_value key t0 \/ writes_value key t0 ->
  rtc (but_for T i releases) c0 c1 -> rtc (but_for T i releases) c1 c2 -> ths c2 !! i = Some t2 -> writes_value key t0 \/ writes_value key t2 ->
  ths c1 !! j = Some u -> ~ reads_value key u /\ ~ writes_value key u.
Proof.
  intros Hi Hj Hn R Ht0 Hrw R1 R2 Ht2 Hw Hu. destruct (reached _ _ _ _ R) as [hs G]. destruct (get_hi _ i c0 hs t0 G Ht0) as [h Hh].
  pose proof (update_locks T _ i key c0 c2 hs h t0 t2 Hi G Hh Ht0 Hrw (rtc_transitive _ _ _ R1 R2) Ht2 Hw) as L.
  destruct (path_locks T _ i MW key releases c0 c1 (fun _ H => H) R1 hs h G Hh L) as (hs1 & h1 & G1 & Hh1 & L1). destruct (get_hi _ j c1 hs1 u G1 Hu) as [hu Hhu].
  assert (X : forall m, ~ locks m key hu). { intros m Lu. eapply (exclusive _ _ _ _ i j h1 hu m (lockpos key) (proj1 G1) Hn Hh1 Hhu); apply locks_held; auto. }
  split; intros Hx; [destruct (read_locks T _ j c1 hs1 u hu key Hj G1 Hu Hhu Hx) as [m Lm]; exact (X m Lm)|exact (X MW (write_locks T _ j c1 hs1 u hu key G1 Hu Hhu Hx))].
Qed.
Lemma writer_second T d cs i j c0 c1 c2 t0 t1 t2 key : no_setnx cs i -> no_setnx cs j -> i <> j -> rtc (cstep T) (clients d cs) c0 -> ths c0 !! j = Some t0 -> reads_value key t0 \/ writes_value key t0 ->
  rtc (but_for T j releases) c0 c1 -> ths c1 !! i = Some t1 -> reads_value key t1 \/ writes_value key t1 -> rtc (but_for T i releases) c1 c2 -> ths c2 !! i = Some t2 ->
  ~ writes_value key t1 /\ ~ writes_value key t2.
Proof.
  intros Hi Hj Hn R Ht0 Hrw R1 Ht1 Hrw1 R2 Ht2. destruct (reached _ _ _ _ R) as [hs G]. destruct (get_hi _ j c0 hs t0 G Ht0) as [h Hh].
  assert (L : exists m, locks m key h). { destruct Hrw as [Hr|Hr]; [eapply read_locks; eauto|exists MW; eapply write_locks; eauto]. } destruct L as [m L].
  destruct (path_locks T _ j m key releases c0 c1 (fun _ H => H) R1 hs h G Hh L) as (hs1 & h1 & G1 & Hh1 & L1). destruct (get_hi _ i c1 hs1 t1 G1 Ht1) as [hi Hhi].
  assert (X : ~ locks MW key hi). { intros Lu. eapply (exclusive _ _ _ _ i j hi h1 m (lockpos key) (proj1 G1) Hn Hhi Hh1); apply locks_held; auto. }
  split; intros Hx; apply X; eapply (update_locks T _ i key c1 c2 hs1 hi t1 t2 Hi G1 Hhi Ht1 Hrw1 R2 Ht2); auto.
Qed.
End Theorems.
