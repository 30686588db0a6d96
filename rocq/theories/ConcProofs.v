(** The lock invariant of concurrent executions; no deadlock; no conflicting accesses. *)
From Verif Require Export Conc WfCmds.

Global Instance mode_eq_dec : EqDecision mode.
Proof. solve_decision. Defined.
Definition b2n (b : bool) : nat := if b then 1 else 0.
Definition held (m : mode) (p : N) (h : lstate) : nat :=
  match h with
  | Idle => 0
  | Grow m' l | Shrink m' l => if decide (m = m' /\ p ∈ l) then 1 else 0
  end.
Definition sorted_h (h : lstate) : Prop :=
  match h with Idle => True | Grow _ l | Shrink _ l => StronglySorted N.lt l end.

Definition wants {A} (pos : N) (t : thread A) : nat :=
  match tcode t with Acq q MW _ => if ann t then if decide (q = pos) then 1 else 0 else 0 | _ => 0 end.
(** Sum over a list. *)
Fixpoint total {X} (f : X -> nat) (l : list X) : nat := match l with [] => 0 | x :: r => f x + total f r end.
Lemma total_insert {X} (f : X -> nat) l i x y : l !! i = Some x -> (total f (<[i := y]> l) + f x = total f l + f y)%nat.
Proof.
  revert i. induction l as [|z l IH]; intros [|i] H; simpl in *; try discriminate.
  - injection H as ->. lia.
  - specialize (IH i H). lia.
Qed.
Lemma total_ge {X} (f : X -> nat) l i x : l !! i = Some x -> (f x <= total f l)%nat.
Proof.
  revert i. induction l as [|z l IH]; intros [|i] H; simpl in *; try discriminate.
  - injection H as ->. lia.
  - specialize (IH i H). lia.
Qed.
Lemma total_two {X} (f : X -> nat) l i j x y : i <> j -> l !! i = Some x -> l !! j = Some y -> (f x + f y <= total f l)%nat.
Proof.
  revert i j. induction l as [|z l IH]; intros [|i] [|j] Hn H1 H2; simpl in *; try discriminate; try lia.
  - injection H1 as ->. pose proof (total_ge f l j y H2). lia.
  - injection H2 as ->. pose proof (total_ge f l i x H1). lia.
  - assert (i <> j) by lia. specialize (IH i j H H1 H2). lia.
Qed.
Lemma total_pos {X} (f : X -> nat) l : (0 < total f l)%nat -> exists i x, l !! i = Some x /\ (0 < f x)%nat.
Proof.
  induction l as [|z l IH]; cbn; [lia|]. intros H. destruct (f z) eqn:E.
  - destruct IH as (i & x & H1 & H2); [lia|]. exists (S i), x. auto.
  - exists 0%nat, z. split; auto. lia.
Qed.
Lemma total_zero {X} (f : X -> nat) l : (forall x, x ∈ l -> f x = 0%nat) -> total f l = 0%nat.
Proof.
  induction l as [|z l IH]; cbn; auto. intros H. rewrite (H z) by left. rewrite IH; auto. intros x Hx. apply H. right. auto.
Qed.

Section WithParams.
Context {P : Setup}.

Definition wft {A} (u s : bool) (h : lstate) (t : thread A) : Prop :=
  Wf.wf (fun _ => True) u s Idle h (tcode t) /\ sorted_h h /\ (ann t = true -> exists p k, tcode t = Acq p MW k).
(** [hs]: the locks each goroutine holds. *)
Record good {A} (u s : bool) (c : conf A) (hs : list lstate) : Prop := mkGood {
  g_wf : Forall2 (wft u s) hs (ths c);
  g_rd : forall p, rd (lk c p) = total (held MR p) hs;
  g_wr : forall p, b2n (wr (lk c p)) = total (held MW p) hs;
  g_pend : forall p, b2n (pend (lk c p)) = total (wants p) (ths c);
  g_ex : forall p, wr (lk c p) = true -> rd (lk c p) = 0%nat /\ pend (lk c p) = false }.

Lemma wf_mono {A} (K K' : bytes -> Prop) (u s : bool) h' h (p : prog A) :
  Wf.wf K u s h' h p -> (forall k, K k -> K' k) -> forall u' s' : bool, (u = true -> u' = true) -> (s = true -> s' = true) ->
  Wf.wf K' u' s' h' h p.
Proof.
  intros H HK u' s' Hu Hs. assert (HL : forall p, lock_of K p -> lock_of K' p) by (intros q (key & H1 & H2); exists key; auto).
  induction H; constructor; intuition auto.
Qed.

(** ** The locks held after a step *)
Inductive lstep : lstate -> N -> mode -> bool -> lstate -> Prop :=
| L_acq0 p m : lstep Idle p m true (Grow m [p])
| L_acq p m l : Forall (fun q => (q < p)%N) l -> lstep (Grow m l) p m true (Grow m (l ++ [p]))
| L_rel1 p m l : lstep (Grow m (p :: l)) p m false (shrunk m l)
| L_rel2 p m l : lstep (Shrink m (p :: l)) p m false (shrunk m l).
Lemma wf_inv_acq {A} K u s h p m (k : prog A) : Wf.wf K u s Idle h (Acq p m k) -> exists h1, lstep h p m true h1 /\ Wf.wf K u s Idle h1 k.
Proof. intros H. inversion H; subst; eexists; split; try eassumption; constructor; auto. Qed.
Lemma wf_inv_rel {A} K u s h p m (k : prog A) : Wf.wf K u s Idle h (Rel p m k) -> exists h1, lstep h p m false h1 /\ Wf.wf K u s Idle h1 k.
Proof. intros H. inversion H; subst; eexists; split; try eassumption; constructor; auto. Qed.
Lemma wf_prim {A} K u s h T d (p : prog A) d' p' : Wf.wf K u s Idle h p -> prim T d p d' p' -> Wf.wf K u s Idle h p'.
Proof. intros H Hp. inversion Hp; subst; inversion H; subst; eauto. Qed.

Lemma sorted_snoc l p : StronglySorted N.lt l -> Forall (fun q => (q < p)%N) l -> StronglySorted N.lt (l ++ [p]).
Proof.
  induction 1 as [|x l Hs IH Hx]; intros HF; cbn; [repeat constructor|].
  inversion HF; subst. constructor; auto. rewrite Forall_app. split; auto.
Qed.
Lemma lstep_sorted h p m b h1 : lstep h p m b h1 -> sorted_h h -> sorted_h h1.
Proof.
  intros [] Hs; cbn in *.
  - repeat constructor.
  - apply sorted_snoc; auto.
  - inversion Hs; subst. destruct l; cbn; auto.
  - inversion Hs; subst. destruct l; cbn; auto.
Qed.
Lemma sorted_nodup l : StronglySorted N.lt l -> NoDup l.
Proof.
  induction 1 as [|x l Hs IH Hx]; constructor; auto. intros Hi. rewrite Forall_forall in Hx. apply elem_of_list_In in Hi. specialize (Hx x Hi). lia.
Qed.
Lemma held_grown m q m' l : (held m q (shrunk m' l) = if decide (m = m' /\ q ∈ l) then 1 else 0)%nat.
Proof. destruct l; cbn; auto. rewrite decide_False; auto. intros [_ H]. inversion H. Qed.
Lemma lstep_held h p m (b : bool) h1 : lstep h p m b h1 -> sorted_h h -> forall m' q,
  (if b then held m' q h1 = held m' q h + (if decide (m' = m /\ q = p) then 1 else 0)
   else held m' q h = held m' q h1 + (if decide (m' = m /\ q = p) then 1 else 0))%nat.
Proof.
  intros Hl Hs m' q. pose proof (lstep_sorted _ _ _ _ _ Hl Hs) as Hs1.
  destruct Hl as [p m|p m l Hl|p m l|p m l]; rewrite ?held_grown; cbn [held sorted_h] in *.
  - repeat case_decide; rewrite ?elem_of_cons, ?elem_of_nil in *; intuition congruence.
  - apply sorted_nodup in Hs1. apply NoDup_app in Hs1 as (_ & Hd & _).
    assert (p ∉ l) by (intros Hi; apply (Hd p Hi); left).
    repeat case_decide; rewrite ?elem_of_app, ?elem_of_cons, ?elem_of_nil in *; intuition (subst; try congruence; try tauto).
  - apply sorted_nodup in Hs. inversion Hs as [|? ? Hn _]; subst.
    repeat case_decide; rewrite ?elem_of_cons in *; intuition (subst; try congruence; try tauto).
  - apply sorted_nodup in Hs. inversion Hs as [|? ? Hn _]; subst.
    repeat case_decide; rewrite ?elem_of_cons in *; intuition (subst; try congruence; try tauto).
Qed.

(** ** Preservation *)
Lemma get_h {A} u s (c : conf A) hs i t : good u s c hs -> ths c !! i = Some t -> exists h, hs !! i = Some h /\ wft u s h t.
Proof. intros G H. destruct (Forall2_lookup_r _ _ _ _ _ (g_wf _ _ _ _ G) H) as (h & H1 & H2). eauto. Qed.
Lemma forall2_upd {X Y} (R : X -> Y -> Prop) l k i x y : Forall2 R l k -> l !! i = Some x -> R x y -> Forall2 R l (<[i := y]> k).
Proof. intros H Hi HR. rewrite <- (list_insert_id l i x Hi). apply Forall2_insert; auto. Qed.
Lemma wants_false {A} pos (p : prog A) : wants pos (mkT p false) = 0%nat.
Proof. unfold wants. cbn. destruct p; auto. destruct m; auto. Qed.
Lemma wants_ann {A} pos q (k : prog A) : wants q (mkT (Acq pos MW k) true) = (if decide (pos = q) then 1 else 0)%nat.
Proof. reflexivity. Qed.

Lemma good_start {A} (u s : bool) d (ps : list (prog A)) : Forall (Wf.wf (fun _ => True) u s Idle Idle) ps ->
  good u s (start d ps) (map (fun _ => Idle) ps).
Proof.
  intros H. constructor; cbn.
  - induction H as [|p ps Hp _ IH]; constructor; auto. repeat split; auto. cbn. discriminate.
  - intros p. rewrite total_zero; auto. intros x Hx. apply elem_of_list_fmap in Hx as (? & -> & _). auto.
  - intros p. rewrite total_zero; auto. intros x Hx. apply elem_of_list_fmap in Hx as (? & -> & _). auto.
  - intros p. rewrite total_zero; auto. intros x Hx. apply elem_of_list_fmap in Hx as (? & -> & _). apply wants_false.
  - discriminate.
Qed.
Lemma good_prim {A} u s T d L (ts : list (thread A)) hs i p d' p' : good u s (mkC d L ts) hs -> ts !! i = Some (mkT p false) ->
  prim T d p d' p' -> good u s (mkC d' L (<[i := mkT p' false]> ts)) hs.
Proof.
  intros G Hi Hp. destruct (get_h _ _ _ _ i _ G Hi) as (h & Hh & W1 & W2 & W3). destruct G as [G1 G2 G3 G4 G5]. constructor; auto; cbn in *.
  - eapply forall2_upd; eauto. split; [|split; auto; cbn; discriminate]. eapply wf_prim; eauto.
  - intros q. rewrite G4. pose proof (total_insert (wants q) ts i _ (mkT p' false) Hi) as E. rewrite !wants_false in E. lia.
Qed.
Lemma good_announce {A} u s d L (ts : list (thread A)) hs i pos k n : good u s (mkC d L ts) hs ->
  ts !! i = Some (mkT (Acq pos MW k) false) -> L pos = mkRw n false false ->
  good u s (mkC d (fupd L pos (mkRw n false true)) (<[i := mkT (Acq pos MW k) true]> ts)) hs.
Proof.
  intros G Hi HL. destruct (get_h _ _ _ _ i _ G Hi) as (h & Hh & W1 & W2 & W3). destruct G as [G1 G2 G3 G4 G5]. constructor; cbn in *.
  - eapply forall2_upd; eauto. split; [|split; auto; cbn; eauto]. auto.
  - intros q. rewrite <- G2. unfold fupd. destruct (N.eqb_spec q pos); subst; rewrite ?HL; auto.
  - intros q. rewrite <- G3. unfold fupd. destruct (N.eqb_spec q pos); subst; rewrite ?HL; auto.
  - intros q. pose proof (total_insert (wants q) ts i _ (mkT (Acq pos MW k) true) Hi) as E. rewrite wants_false in E.
    rewrite wants_ann in E. rewrite <- G4 in E. unfold fupd. destruct (N.eqb_spec q pos); subst.
    + rewrite HL in E. cbn in *. rewrite decide_True in E by auto. lia.
    + rewrite decide_False in E by auto. lia.
  - intros q. unfold fupd. destruct (N.eqb_spec q pos); subst; cbn; [discriminate|auto].
Qed.
(** A lock is granted. *)
Lemma good_lock {A} u s d L (ts : list (thread A)) hs i pos m k h h1 b x : good u s (mkC d L ts) hs ->
  ts !! i = Some (mkT (Acq pos m k) b) -> hs !! i = Some h -> lstep h pos m true h1 -> Wf.wf (fun _ => True) u s Idle h1 k ->
  match m with
  | MR => b = false /\ exists n, L pos = mkRw n false false /\ x = mkRw (S n) false false
  | MW => b = true /\ L pos = mkRw 0 false true /\ x = mkRw 0 true false
  end ->
  good u s (mkC d (fupd L pos x) (<[i := mkT k false]> ts)) (<[i := h1]> hs).
Proof.
  intros G Hi Hh Hl Hw Hm. destruct (get_h _ _ _ _ i _ G Hi) as (h0 & Hh0 & W1 & W2 & W3).
  assert (h0 = h) as -> by congruence. destruct G as [G1 G2 G3 G4 G5].
  pose proof (lstep_held _ _ _ _ _ Hl W2) as HH. cbn in HH.
  assert (ER : forall q, total (held MR q) (<[i := h1]> hs) = (total (held MR q) hs + (if decide (MR = m /\ q = pos) then 1 else 0))%nat).
  { intros q. pose proof (total_insert (held MR q) hs i h h1 Hh). rewrite (HH MR q) in H. lia. }
  assert (EW : forall q, total (held MW q) (<[i := h1]> hs) = (total (held MW q) hs + (if decide (MW = m /\ q = pos) then 1 else 0))%nat).
  { intros q. pose proof (total_insert (held MW q) hs i h h1 Hh). rewrite (HH MW q) in H. lia. }
  assert (EP : forall q, (total (wants q) (<[i := mkT k false]> ts) + wants q (mkT (Acq pos m k) b) = total (wants q) ts)%nat).
  { intros q. pose proof (total_insert (wants q) ts i _ (mkT k false) Hi) as E. rewrite wants_false in E. lia. }
  constructor; cbn in *.
  - apply Forall2_insert; auto. split; [auto|]. split; [eapply lstep_sorted; eauto|]. cbn. discriminate.
  - intros q. rewrite ER, <- G2. unfold fupd. destruct (N.eqb_spec q pos) as [->|Hq].
    + destruct m; [destruct Hm as (_ & n & E & ->)|destruct Hm as (_ & E & ->)]; rewrite E; cbn; repeat case_decide; intuition (try congruence; lia).
    + rewrite decide_False by tauto. lia.
  - intros q. rewrite EW, <- G3. unfold fupd. destruct (N.eqb_spec q pos) as [->|Hq].
    + destruct m; [destruct Hm as (_ & n & E & ->)|destruct Hm as (_ & E & ->)]; rewrite E; cbn; repeat case_decide; intuition (try congruence; lia).
    + rewrite decide_False by tauto. lia.
  - intros q. specialize (EP q). rewrite <- G4 in EP. unfold fupd. destruct (N.eqb_spec q pos) as [->|Hq].
    + destruct m; [destruct Hm as (-> & n & E & ->)|destruct Hm as (-> & E & ->)]; rewrite E in EP; cbn in *; repeat case_decide; intuition (try congruence; lia).
    + destruct m; [cbn in EP; lia|]. destruct b; [|cbn in EP; lia]. cbn in EP. rewrite decide_False in EP by congruence. lia.
  - intros q. unfold fupd. destruct (N.eqb_spec q pos) as [->|Hq]; [|auto].
    destruct m; [destruct Hm as (_ & n & E & ->)|destruct Hm as (_ & E & ->)]; cbn; auto; discriminate.
Qed.
(** A lock is released. *)
Lemma good_unlock {A} u s d L (ts : list (thread A)) hs i pos m k h h1 x : good u s (mkC d L ts) hs ->
  ts !! i = Some (mkT (Rel pos m k) false) -> hs !! i = Some h -> lstep h pos m false h1 -> Wf.wf (fun _ => True) u s Idle h1 k ->
  match m with
  | MR => exists n b, L pos = mkRw (S n) false b /\ x = mkRw n false b
  | MW => exists n b, L pos = mkRw n true b /\ x = mkRw n false b
  end ->
  good u s (mkC d (fupd L pos x) (<[i := mkT k false]> ts)) (<[i := h1]> hs).
Proof.
  intros G Hi Hh Hl Hw Hm. destruct (get_h _ _ _ _ i _ G Hi) as (h0 & Hh0 & W1 & W2 & W3).
  assert (h0 = h) as -> by congruence. destruct G as [G1 G2 G3 G4 G5].
  pose proof (lstep_held _ _ _ _ _ Hl W2) as HH. cbn in HH.
  assert (ER : forall q, total (held MR q) hs = (total (held MR q) (<[i := h1]> hs) + (if decide (MR = m /\ q = pos) then 1 else 0))%nat).
  { intros q. pose proof (total_insert (held MR q) hs i h h1 Hh). rewrite (HH MR q) in H. lia. }
  assert (EW : forall q, total (held MW q) hs = (total (held MW q) (<[i := h1]> hs) + (if decide (MW = m /\ q = pos) then 1 else 0))%nat).
  { intros q. pose proof (total_insert (held MW q) hs i h h1 Hh). rewrite (HH MW q) in H. lia. }
  assert (EP : forall q, total (wants q) (<[i := mkT k false]> ts) = total (wants q) ts).
  { intros q. pose proof (total_insert (wants q) ts i _ (mkT k false) Hi) as E. rewrite !wants_false in E. lia. }
  constructor; cbn in *.
  - apply Forall2_insert; auto. split; [auto|]. split; [eapply lstep_sorted; eauto|]. cbn. discriminate.
  - intros q. specialize (ER q). rewrite <- G2 in ER. unfold fupd. destruct (N.eqb_spec q pos) as [->|Hq].
    + destruct m; destruct Hm as (n & b & E & ->); rewrite E in ER; cbn in *; repeat case_decide; intuition (try congruence; lia).
    + rewrite decide_False in ER by tauto. lia.
  - intros q. specialize (EW q). rewrite <- G3 in EW. unfold fupd. destruct (N.eqb_spec q pos) as [->|Hq].
    + destruct m; destruct Hm as (n & b & E & ->); rewrite E in EW; cbn in *; repeat case_decide; intuition (try congruence; lia).
    + rewrite decide_False in EW by tauto. lia.
  - intros q. rewrite EP, <- G4. unfold fupd. destruct (N.eqb_spec q pos) as [->|Hq]; auto.
    destruct m; destruct Hm as (n & b & E & ->); rewrite E; auto.
  - intros q. unfold fupd. destruct (N.eqb_spec q pos) as [->|Hq]; [|auto].
    destruct m; destruct Hm as (n & b & E & ->); cbn; discriminate.
Qed.
Lemma good_step {A} u s T (c c' : conf A) hs : good u s c hs -> cstep T c c' -> exists hs', good u s c' hs'.
Proof.
  intros G H. destruct H as [d L ts i p d' p' Hi Hp|d L ts i pos k n Hi HL|d L ts i pos k n Hi HL|d L ts i pos k Hi HL|d L ts i pos k n b Hi HL|d L ts i pos k n b Hi HL].
  - exists hs. eapply good_prim; eauto.
  - destruct (get_h _ _ _ _ i _ G Hi) as (h & Hh & W1 & W2 & W3). cbn in W1. destruct (wf_inv_acq _ _ _ _ _ _ _ W1) as (h1 & Hl & Hw).
    exists (<[i := h1]> hs). eapply good_lock; eauto. cbn. eauto.
  - exists hs. eapply good_announce; eauto.
  - destruct (get_h _ _ _ _ i _ G Hi) as (h & Hh & W1 & W2 & W3). cbn in W1. destruct (wf_inv_acq _ _ _ _ _ _ _ W1) as (h1 & Hl & Hw).
    exists (<[i := h1]> hs). eapply good_lock; eauto. cbn. eauto.
  - destruct (get_h _ _ _ _ i _ G Hi) as (h & Hh & W1 & W2 & W3). cbn in W1. destruct (wf_inv_rel _ _ _ _ _ _ _ W1) as (h1 & Hl & Hw).
    exists (<[i := h1]> hs). eapply good_unlock; eauto. cbn. eauto.
  - destruct (get_h _ _ _ _ i _ G Hi) as (h & Hh & W1 & W2 & W3). cbn in W1. destruct (wf_inv_rel _ _ _ _ _ _ _ W1) as (h1 & Hl & Hw).
    exists (<[i := h1]> hs). eapply good_unlock; eauto. cbn. eauto.
Qed.
Lemma good_steps {A} u s T (c c' : conf A) : rtc (cstep T) c c' -> forall hs, good u s c hs -> exists hs', good u s c' hs'.
Proof.
  induction 1 as [c|c c1 c' Hs _ IH]; intros hs G; [eauto|]. destruct (good_step _ _ _ _ _ _ G Hs) as [hs1 G1]. eauto.
Qed.
(** [u], [s]: whether SETNX and KEYS occur. *)
Definition allows (u s : bool) (cs : list (list command)) : Prop :=
  forall cmds cmd, cmds ∈ cs -> cmd ∈ cmds -> (cmd_is "setnx" cmd = true -> u = true) /\ (cmd_is "keys" cmd = true -> s = true).
Lemma exec_wf_us (u s : bool) cmd : (cmd_is "setnx" cmd = true -> u = true) -> (cmd_is "keys" cmd = true -> s = true) ->
  Wf.wf (fun _ => True) u s Idle Idle (exec_in_db cmd).
Proof.
  intros Hu Hs. pose proof (exec_wf cmd) as H. unfold cmd_wf in H. revert H. generalize (exec_in_db cmd). intros p H.
  exact (wf_mono _ (fun _ => True) _ _ _ _ _ H (fun _ _ => I) u s Hu Hs).
Qed.
Lemma wf_client_from u s acc cmds : (forall cmd, cmd ∈ cmds -> (cmd_is "setnx" cmd = true -> u = true) /\ (cmd_is "keys" cmd = true -> s = true)) ->
  Wf.wf (fun _ => True) u s Idle Idle (client_from acc cmds).
Proof.
  revert acc. induction cmds as [|c cmds IH]; intros acc Ha; [constructor|].
  change (client_from acc (c :: cmds)) with (x <- exec_in_db c ;; client_from (acc ++ [x]) cmds).
  apply wf_bind with (h1 := Idle); [apply exec_wf_us; apply Ha; left|]. intros x. apply IH. intros; apply Ha; right; auto.
Qed.
Lemma wf_client u s cmds : (forall cmd, cmd ∈ cmds -> (cmd_is "setnx" cmd = true -> u = true) /\ (cmd_is "keys" cmd = true -> s = true)) ->
  Wf.wf (fun _ => True) u s Idle Idle (client cmds).
Proof. apply wf_client_from. Qed.
Lemma good_clients_start u s d cs : allows u s cs -> exists hs, good u s (clients d cs) hs.
Proof.
  intros H. eexists. apply good_start. apply Forall_forall. intros p Hp.
  apply elem_of_list_In in Hp. apply elem_of_list_fmap in Hp as (cmds & -> & Hc). apply wf_client. intros cmd Hi. eapply H; eauto.
Qed.
Lemma good_clients_us u s T d cs c : allows u s cs -> rtc (cstep T) (clients d cs) c -> exists hs, good u s c hs.
Proof. intros H Hs. destruct (good_clients_start u s d cs H) as [hs G]. eapply good_steps; eauto. Qed.
Lemma good_clients T d cs c : rtc (cstep T) (clients d cs) c -> exists hs, good true true c hs.
Proof. apply good_clients_us. intros ? ? ? ?. auto. Qed.

(** ** No deadlock *)
Lemma unlocked_ret {A} u s h (t : thread A) m p : wft u s h t -> (0 < held m p h)%nat -> ~ returned t.
Proof. intros (W & _ & _) H [a E]. rewrite E in W. inversion W; subst. cbn in H. lia. Qed.
Lemma holder_waits_above {A} u s h (t : thread A) c m p : wft u s h t -> (0 < held m p h)%nat -> waits c t ->
  exists q m' k, tcode t = Acq q m' k /\ (p < q)%N.
Proof.
  intros (W & _ & _) H Hw. unfold waits in Hw. destruct (tcode t) as [ | | | | | | | | | | | | | | |q m' k| ] eqn:E; try tauto.
  exists q, m', k. split; auto. destruct (wf_inv_acq _ _ _ _ _ _ _ W) as (h1 & Hl & _). inversion Hl; subst; cbn in H; [lia|].
  destruct (decide (m = m' /\ p ∈ l)) as [[_ Hi]|]; [|lia].
  match goal with H : Forall _ l |- _ => rewrite Forall_forall in H; apply H; apply elem_of_list_In; auto end.
Qed.
Lemma held_by {A} u s (c : conf A) hs m p : good u s c hs -> (0 < total (held m p) hs)%nat ->
  exists j t h, ths c !! j = Some t /\ hs !! j = Some h /\ wft u s h t /\ (0 < held m p h)%nat.
Proof.
  intros G H. destruct (total_pos _ _ H) as (j & h & Hj & Hh).
  destruct (Forall2_lookup_l _ _ _ _ _ (g_wf _ _ _ _ G) Hj) as (t & Ht & W). eauto 8.
Qed.
Lemma wait_holder {A} u s (c : conf A) hs i t p m k : good u s c hs ->
  (forall j t, ths c !! j = Some t -> ~ returned t -> waits c t) ->
  ths c !! i = Some t -> tcode t = Acq p m k -> exists j t' h m', ths c !! j = Some t' /\ hs !! j = Some h /\ wft u s h t' /\ (0 < held m' p h)%nat.
Proof.
  intros G Hall Hi Ht. assert (Hw : waits c t). { apply (Hall i); auto. intros [a E]. congruence. }
  assert (HR : rd (lk c p) <> 0%nat -> exists j t' h m', ths c !! j = Some t' /\ hs !! j = Some h /\ wft u s h t' /\ (0 < held m' p h)%nat).
  { intros Hr. destruct (held_by _ _ _ _ MR p G) as (j & t' & h & H); [rewrite <- (g_rd _ _ _ _ G); lia|]. exists j, t', h, MR. auto. }
  assert (HW : wr (lk c p) = true -> exists j t' h m', ths c !! j = Some t' /\ hs !! j = Some h /\ wft u s h t' /\ (0 < held m' p h)%nat).
  { intros Hr. destruct (held_by _ _ _ _ MW p G) as (j & t' & h & H); [rewrite <- (g_wr _ _ _ _ G), Hr; cbn; lia|]. exists j, t', h, MW. auto. }
  assert (HP : pend (lk c p) = true -> exists j t' h m', ths c !! j = Some t' /\ hs !! j = Some h /\ wft u s h t' /\ (0 < held m' p h)%nat).
  { intros Hr. assert (0 < total (wants p) (ths c))%nat as H by (rewrite <- (g_pend _ _ _ _ G), Hr; cbn; lia).
    destruct (total_pos _ _ H) as (j & t' & Hj & Hh). unfold wants in Hh.
    destruct (tcode t') as [ | | | | | | | | | | | | | | |q m' k'| ] eqn:E; try lia. destruct m'; [lia|].
    destruct (ann t') eqn:Ea; [|lia]. destruct (decide (q = p)) as [->|]; [|lia].
    assert (Hw' : waits c t'). { apply (Hall j); auto. intros [a E']. congruence. }
    unfold waits in Hw'. rewrite E, Ea in Hw'. auto. }
  unfold waits in Hw. rewrite Ht in Hw. destruct m; [tauto|]. destruct (ann t); tauto.
Qed.
(** The largest position a goroutine waits for. *)
Definition wpos {A} (t : thread A) : N := match tcode t with Acq p _ _ => p | _ => 0%N end.
Fixpoint top {A} (ts : list (thread A)) : N := match ts with [] => 0%N | t :: r => N.max (wpos t) (top r) end.
Lemma top_ge {A} (ts : list (thread A)) i t : ts !! i = Some t -> (wpos t <= top ts)%N.
Proof. revert i. induction ts as [|x ts IH]; intros [|i] H; simpl in *; try discriminate. { injection H as ->. lia. } specialize (IH i H). lia. Qed.
Lemma no_chain {A} u s (c : conf A) hs : good u s c hs -> (forall j t, ths c !! j = Some t -> ~ returned t -> waits c t) ->
  forall n i t p m k, ths c !! i = Some t -> tcode t = Acq p m k -> (top (ths c) < p + N.of_nat n)%N -> False.
Proof.
  intros G Hall. induction n as [|n IH]; intros i t p m k Hi Ht Hn.
  - pose proof (top_ge _ _ _ Hi) as H. unfold wpos in H. rewrite Ht in H. lia.
  - destruct (wait_holder _ _ _ _ _ _ _ _ _ G Hall Hi Ht) as (j & t' & h & m' & Hj & _ & W & Hh).
    destruct (holder_waits_above _ _ _ _ c _ _ W Hh) as (q & m2 & k2 & E & Hq).
    + apply (Hall j); auto. eapply unlocked_ret; eauto.
    + apply (IH j t' q m2 k2 Hj E). lia.
Qed.
Lemma returned_dec {A} (t : thread A) : {returned t} + {~ returned t}.
Proof. destruct t as [[] b]; try (right; intros [? E]; discriminate). left. eexists. reflexivity. Qed.
Lemma waits_dec {A} (c : conf A) t : {waits c t} + {~ waits c t}.
Proof.
  unfold waits. destruct (tcode t); try (right; tauto). destruct m; [destruct (wr (lk c pos)), (pend (lk c pos)); auto; right; intuition discriminate|].
  destruct (ann t); [destruct (decide (rd (lk c pos) <> 0%nat)); auto|destruct (wr (lk c pos)), (pend (lk c pos)); auto; right; intuition discriminate].
Qed.
Lemma find_thread {A} (Q : thread A -> Prop) (D : forall t, {Q t} + {~ Q t}) (ts : list (thread A)) : (exists (i : nat) t, ts !! i = Some t /\ Q t) \/ (forall (i : nat) t, ts !! i = Some t -> ~ Q t).
Proof.
  induction ts as [|x ts [(i & t & H1 & H2)|IH]].
  - right. discriminate.
  - left. exists (S i), t. auto.
  - destruct (D x) as [H|H]; [left; exists 0%nat, x; auto|]. right. intros [|i] t E; simpl in E; [injection E as <-; auto|eauto].
Qed.
Theorem no_deadlock {A} u s (c : conf A) hs i t : good u s c hs -> ths c !! i = Some t -> ~ returned t ->
  exists j t', ths c !! j = Some t' /\ ~ returned t' /\ ~ waits c t'.
Proof.
  intros G Hi Hr. destruct (find_thread (fun t => ~ returned t /\ ~ waits c t)) with (ts := ths c) as [(j & t' & H1 & H2 & H3)|Hn].
  - intros x. destruct (returned_dec x); [right; tauto|]. destruct (waits_dec c x); [right; tauto|left; auto].
  - eauto 6.
  - exfalso. assert (Hall : forall j t, ths c !! j = Some t -> ~ returned t -> waits c t).
    { intros j x Hj Hx. destruct (waits_dec c x); auto. destruct (Hn j x Hj). auto. }
    pose proof (Hall i t Hi Hr) as Hw. unfold waits in Hw. destruct (tcode t) as [ | | | | | | | | | | | | | | |q m k| ] eqn:E; try tauto.
    apply (no_chain _ _ _ _ G Hall (S (N.to_nat (top (ths c)))) i t q m k Hi E). lia.
Qed.

(** ** Unlocking *)
Lemma no_bad_unlock {A} u s (c : conf A) hs i t : good u s c hs -> ths c !! i = Some t -> ~ bad_unlock c t.
Proof.
  intros G Hi Hb. destruct (get_h _ _ _ _ _ _ G Hi) as (h & Hh & W & _ & _). unfold bad_unlock in Hb.
  destruct (tcode t) as [ | | | | | | | | | | | | | | | |q m k] eqn:E; try tauto.
  destruct (wf_inv_rel _ _ _ _ _ _ _ W) as (h1 & Hl & _).
  assert (Hp : (0 < held m q h)%nat). { inversion Hl; subst; cbn; rewrite decide_True; try lia; split; auto; left. }
  pose proof (total_ge (held m q) hs i h Hh) as Hg. destruct m.
  - rewrite <- (g_rd _ _ _ _ G) in Hg. lia.
  - rewrite <- (g_wr _ _ _ _ G), Hb in Hg. cbn in Hg. lia.
Qed.
(** When everyone has returned all locks are free. *)
Lemma all_free {A} u s (c : conf A) hs : good u s c hs -> (forall i t, ths c !! i = Some t -> returned t) -> forall p, lk c p = free.
Proof.
  intros G Hr p. assert (H : forall m, total (held m p) hs = 0%nat).
  { intros m. destruct (total (held m p) hs) eqn:E; auto. exfalso.
    destruct (held_by _ _ _ _ m p G) as (j & t & h & Hj & _ & W & Hh); [lia|]. eapply unlocked_ret; eauto. }
  pose proof (g_rd _ _ _ _ G p) as H1. pose proof (g_wr _ _ _ _ G p) as H2. pose proof (g_pend _ _ _ _ G p) as H3. rewrite H in H1, H2.
  rewrite total_zero in H3.
  - unfold free. destruct (lk c p) as [n [] []]; cbn in *; congruence.
  - intros t Ht. apply elem_of_list_lookup in Ht as [i Hi]. destruct (Hr i t Hi) as [a E]. unfold wants. rewrite E. auto.
Qed.

(** ** Conflicts *)
Lemma write_held {A} u s h (t : thread A) key : wft u s h t -> writes_value key t \/ writes_deadline key t -> held MW (lockpos key) h = 1%nat.
Proof.
  intros (W & _ & _) Hk. assert (C : canwrite h key).
  { unfold writes_value, writes_deadline in Hk. destruct (tcode t) eqn:E; try tauto; destruct Hk; try tauto; subst; inversion W; auto. }
  destruct C as (l & -> & Hi). cbn. rewrite decide_True; auto.
Qed.
Lemma read_held {A} s h (t : thread A) key : wft false s h t -> reads_value key t -> exists m, held m (lockpos key) h = 1%nat.
Proof.
  intros (W & _ & _) Hk. assert (C : canread h key).
  { unfold reads_value in Hk. destruct (tcode t) eqn:E; try tauto; subst. inversion W; subst. intuition discriminate. }
  destruct C as (m & l & -> & Hi). exists m. cbn. rewrite decide_True; auto.
Qed.
Lemma exclusive {A} u s (c : conf A) hs i j h h' m p : good u s c hs -> i <> j -> hs !! i = Some h -> hs !! j = Some h' ->
  held MW p h = 1%nat -> held m p h' = 1%nat -> False.
Proof.
  intros G Hn Hi Hj H1 H2. pose proof (total_ge (held MW p) hs i h Hi) as Hg. rewrite <- (g_wr _ _ _ _ G), H1 in Hg.
  assert (Hw : wr (lk c p) = true) by (destruct (wr (lk c p)); auto; cbn in Hg; lia).
  destruct m.
  - pose proof (total_ge (held MR p) hs j h' Hj) as Hr. rewrite <- (g_rd _ _ _ _ G), H2 in Hr.
    destruct (g_ex _ _ _ _ G p Hw) as [E _]. lia.
  - pose proof (total_two (held MW p) hs i j h h' Hn Hi Hj) as Hr. rewrite <- (g_wr _ _ _ _ G), Hw, H1, H2 in Hr. cbn in Hr. lia.
Qed.
Lemma one_writer {A} u s (c : conf A) hs i j t t' key : good u s c hs -> i <> j -> ths c !! i = Some t -> ths c !! j = Some t' ->
  writes_value key t \/ writes_deadline key t -> writes_value key t' \/ writes_deadline key t' -> False.
Proof.
  intros G Hn Hi Hj H1 H2. destruct (get_h _ _ _ _ _ _ G Hi) as (h & Hh & W). destruct (get_h _ _ _ _ _ _ G Hj) as (h' & Hh' & W').
  eapply exclusive; [exact G|exact Hn|exact Hh|exact Hh'|eapply write_held; eauto|eapply write_held; eauto].
Qed.
Lemma no_read_write {A} s (c : conf A) hs i j t t' key : good false s c hs -> i <> j -> ths c !! i = Some t -> ths c !! j = Some t' ->
  writes_value key t -> reads_value key t' -> False.
Proof.
  intros G Hn Hi Hj H1 H2. destruct (get_h _ _ _ _ _ _ G Hi) as (h & Hh & W). destruct (get_h _ _ _ _ _ _ G Hj) as (h' & Hh' & W').
  destruct (read_held _ _ _ _ W' H2) as [m Hm].
  eapply exclusive; [exact G|exact Hn|exact Hh|exact Hh'|eapply write_held; eauto|eauto].
Qed.

(** ** Executions are finite *)
Inductive child {A} : prog A -> prog A -> Prop :=
| Ch_Now k t : child (k t) (Now k)
| Ch_Range l k l' : child (k l') (Range l k)
| Ch_DGet key k x : child (k x) (DGet key k)
| Ch_DSet key v k x : child (k x) (DSet key v k)
| Ch_DMut key v k : child k (DMut key v k)
| Ch_DDel key k x : child (k x) (DDel key k)
| Ch_DSeg i k x : child (k x) (DSeg i k)
| Ch_CntLoad k x : child (k x) (CntLoad k)
| Ch_CntStore c k : child k (CntStore c k)
| Ch_EGet key k x : child (k x) (EGet key k)
| Ch_ESet key t k : child k (ESet key t k)
| Ch_EDel key k x : child (k x) (EDel key k)
| Ch_Acq p m k : child k (Acq p m k)
| Ch_Rel p m k : child k (Rel p m k).
Lemma child_wf {A} (p : prog A) : Acc child p.
Proof. induction p; constructor; intros y Hy; inversion Hy; subst; auto. Qed.
Definition tlt {A} (t' t : thread A) : Prop := child (tcode t') (tcode t) \/ (tcode t' = tcode t /\ ann t = false /\ ann t' = true).
Lemma tlt_wf {A} (t : thread A) : Acc tlt t.
Proof.
  destruct t as [p b]. revert b. induction (child_wf p) as [p _ IH].
  assert (H1 : Acc tlt (mkT p true)). { constructor. intros [q b'] [H|(_ & H & _)]; cbn in *; [auto|discriminate]. }
  intros [|]; auto. constructor. intros [q b'] [H|(E & _ & H)]; cbn in *; subst; auto.
Qed.
Lemma tlt_irrefl {A} (t : thread A) : ~ tlt t t.
Proof. intros H. induction (tlt_wf t) as [t _ IH]. eauto. Qed.
Definition ult {A} (l' l : list (thread A)) : Prop := exists i x y, l !! i = Some x /\ tlt y x /\ l' = <[i := y]> l.
Lemma ult_wf {A} (l : list (thread A)) : Acc ult l.
Proof.
  induction l as [|x l IH]; [constructor; intros l' (i & x & y & H & _); discriminate|].
  revert l IH. induction (tlt_wf x) as [x _ IHx]. intros l Hl. induction Hl as [l Hl IHl].
  constructor. intros l' ([|i] & z & y & H & Hlt & ->); simpl in *.
  - injection H as ->. apply IHx; auto. constructor; auto.
  - apply IHl. exists i, z, y. auto.
Qed.
Lemma advance_ult {A} T (c c' : conf A) : advance T c c' -> ult (ths c') (ths c).
Proof.
  intros [H Hn]. destruct H as [d L ts i p d' p' Hi Hp|d L ts i pos k n Hi HL|d L ts i pos k n Hi HL|d L ts i pos k Hi HL|d L ts i pos k n b Hi HL|d L ts i pos k n b Hi HL]; cbn in *;
    (eexists i, _, _; split; [exact Hi|split; [|reflexivity]]); try (left; cbn; constructor).
  - left. cbn. destruct Hp; try constructor. destruct Hn. apply list_insert_id; auto.
  - right. auto.
Qed.
Lemma advance_wf {A} T (c : conf A) : Acc (fun c' c => advance T c c') c.
Proof.
  remember (ths c) as l eqn:E. revert c E. induction (ult_wf l) as [l _ IH]. intros c ->. constructor. intros c' H.
  eapply IH; [eapply advance_ult; exact H|reflexivity].
Qed.
Lemma finite_advance {A} T (f : nat -> conf A) : ~ (forall n, advance T (f n) (f (S n))).
Proof.
  intros H. assert (forall c, Acc (fun c' c => advance T c c') c -> forall n, f n = c -> False) as Hf.
  { intros c Ha. induction Ha as [c _ IH]. intros n <-. apply (IH _ (H n) (S n)). reflexivity. }
  eapply Hf; [apply advance_wf|reflexivity]. Unshelve. exact 0%nat.
Qed.
Lemma moves {A} T (c c' : conf A) i t t' : cstep T c c' -> ths c !! i = Some t -> ths c' = <[i := t']> (ths c) -> tlt t' t -> cstep T c c' /\ ths c' !! i <> ths c !! i.
Proof.
  intros H Hi Hc Ht. split; auto. rewrite Hc. intros E.
  rewrite list_lookup_insert in E by (eapply lookup_lt_Some; eauto). rewrite Hi in E. injection E as ->. eapply tlt_irrefl; eauto.
Qed.
Lemma can_move {A} u s (T : Z -> Prop) t0 (c : conf A) hs i t : good u s c hs -> T t0 -> ths c !! i = Some t -> ~ returned t -> ~ waits c t ->
  tcode t <> Crash -> tcode t <> Hang -> exists c', cstep T c c' /\ ths c' !! i <> ths c !! i.
Proof.
  intros G HT Hi Hr Hw Hc Hh. pose proof (no_bad_unlock _ _ _ _ _ _ G Hi) as Hb. pose proof (g_ex _ _ _ _ G) as Hx.
  destruct (get_h _ _ _ _ _ _ G Hi) as (h & _ & _ & _ & Ha).
  destruct c as [d L ts]. cbn in *. destruct t as [p b]. cbn in *.
  assert (Hp : forall d' p', b = false -> prim T d p d' p' -> child p' p -> exists c', cstep T (mkC d L ts) c' /\ ths c' !! i <> ts !! i).
  { intros d' p' -> Hp Hch. eexists. eapply moves; [eapply C_prim; eauto|exact Hi|reflexivity|left; exact Hch]. }
  destruct p as [ | | | | | | | | | | | | | | |q m k|q m k]; try congruence;
    try (destruct b; [destruct (Ha eq_refl) as (? & ? & ?); discriminate|]);
    try (eapply Hp; [reflexivity|constructor; eauto|constructor]; fail).
  - destruct Hr. eexists. reflexivity.
  - unfold waits in Hw. cbn in Hw. destruct m, b.
    + destruct (Ha eq_refl) as (? & ? & ?); discriminate.
    + destruct (L q) as [n w pe] eqn:E. destruct w, pe; try tauto. eexists. eapply moves; [eapply C_rlock; eauto|exact Hi|reflexivity|left; constructor].
    + destruct (L q) as [n w pe] eqn:E. cbn in Hw. assert (n = 0%nat) as -> by lia.
      assert (Hpe : (1 <= b2n (pend (L q)))%nat).
      { pose proof (g_pend _ _ _ _ G q) as Hg. cbn in Hg. rewrite Hg. pose proof (total_ge (wants q) ts i _ Hi) as Hq. cbn in Hq. rewrite decide_True in Hq by auto. lia. }
      rewrite E in Hpe. destruct pe; [|cbn in Hpe; lia]. destruct w. { destruct (Hx q) as [_ Hq]; rewrite E in *; cbn in *; congruence. }
      eexists. eapply moves; [eapply C_wlock; eauto|exact Hi|reflexivity|left; constructor].
    + destruct (L q) as [n w pe] eqn:E. destruct w, pe; try tauto. eexists. eapply moves; [eapply C_announce; eauto|exact Hi|reflexivity|right; auto].
  - unfold bad_unlock in Hb. cbn in Hb. destruct (L q) as [n w pe] eqn:E. destruct m; cbn in Hb.
    + destruct n; [congruence|]. destruct w. { destruct (Hx q) as [Hq _]; rewrite E in *; cbn in *; congruence. }
      eexists. eapply moves; [eapply C_runlock; eauto|exact Hi|reflexivity|left; constructor].
    + destruct w; [|congruence]. eexists. eapply moves; [eapply C_wunlock; eauto|exact Hi|reflexivity|left; constructor].
Qed.
Lemma can_advance {A} u s (T : Z -> Prop) t0 (c : conf A) hs i t : good u s c hs -> T t0 -> ths c !! i = Some t -> ~ returned t -> ~ waits c t ->
  tcode t <> Crash -> tcode t <> Hang -> exists c', advance T c c'.
Proof.
  intros G HT Hi Hr Hw Hc Hh. destruct (can_move _ _ _ _ _ _ _ _ G HT Hi Hr Hw Hc Hh) as (c' & Hs & Hm). exists c'. split; congruence.
Qed.
(** When nobody can advance: everybody has returned, or somebody died or loops forever. *)
Lemma stuck {A} u s (T : Z -> Prop) t0 (c : conf A) hs : good u s c hs -> T t0 -> (forall c', ~ advance T c c') ->
  (forall i t, ths c !! i = Some t -> returned t) \/ (exists i t, ths c !! i = Some t /\ (tcode t = Crash \/ tcode t = Hang)).
Proof.
  intros G HT Hn. destruct (find_thread (fun t : thread A => ~ returned t)) with (ts := ths c) as [(i & t & Hi & Hr)|Hr].
  - intros t. destruct (returned_dec t); [right|left]; tauto.
  - right. destruct (no_deadlock _ _ _ _ _ _ G Hi Hr) as (j & t' & Hj & Hr' & Hw).
    exists j, t'. split; auto. destruct t' as [p b]. cbn. destruct p; auto; exfalso;
      (destruct (can_advance _ _ _ _ _ _ _ _ G HT Hj Hr' Hw) as [c' Hc]; cbn; [discriminate|discriminate|]; eapply Hn; exact Hc).
  - left. intros i t Hi. destruct (returned_dec t); auto. destruct (Hr i t Hi). auto.
Qed.

(** ** For clients *)
Section Clients.
Context (T : Z -> Prop) (d : db) (cs : list (list command)) (c : conf (list rdata)) (R : rtc (cstep T) (clients d cs) c).
Lemma clients_no_deadlock i t : ths c !! i = Some t -> ~ returned t -> exists j t', ths c !! j = Some t' /\ ~ returned t' /\ ~ waits c t'.
Proof. destruct (good_clients T d cs c R) as [hs G]. eapply no_deadlock; eauto. Qed.
Lemma clients_stuck t0 : T t0 -> (forall c', ~ advance T c c') ->
  (forall i t, ths c !! i = Some t -> returned t) \/ (exists i t, ths c !! i = Some t /\ (tcode t = Crash \/ tcode t = Hang)).
Proof. destruct (good_clients T d cs c R) as [hs G]. eapply stuck; eauto. Qed.
Lemma clients_unlock i t : ths c !! i = Some t -> ~ bad_unlock c t.
Proof. destruct (good_clients T d cs c R) as [hs G]. eapply no_bad_unlock; eauto. Qed.
Lemma clients_free : (forall i t, ths c !! i = Some t -> returned t) -> forall p, lk c p = free.
Proof. destruct (good_clients T d cs c R) as [hs G]. eapply all_free; eauto. Qed.
Lemma clients_one_writer i j t t' key : i <> j -> ths c !! i = Some t -> ths c !! j = Some t' ->
  writes_value key t \/ writes_deadline key t -> ~ (writes_value key t' \/ writes_deadline key t').
Proof. destruct (good_clients T d cs c R) as [hs G]. intros Hn Hi Hj H1 H2. eapply one_writer; [exact G|exact Hn| | | | ]; eauto. Qed.
Lemma clients_no_read_write i j t t' key : (forall cmds cmd, cmds ∈ cs -> cmd ∈ cmds -> cmd_is "setnx" cmd = false) ->
  i <> j -> ths c !! i = Some t -> ths c !! j = Some t' -> writes_value key t -> ~ reads_value key t'.
Proof.
  intros Ha Hn Hi Hj H1 H2. destruct (good_clients_us false true T d cs c) as [hs G]; auto.
  - intros cmds cmd H3 H4. rewrite (Ha _ _ H3 H4). auto.
  - eapply no_read_write; [exact G|exact Hn| | | | ]; eauto.
Qed.
End Clients.
End WithParams.
