(** Whom goroutines that stand still hold up. *)
From Verif Require Export SpecHoldup ConcProofs.

Section WithParams.
Context {P : Setup}.

Definition hlocks (h : lstate) : list N := match h with Idle => [] | Grow _ l => l | Shrink _ l => l end.
(** [lw F R h p]: whenever [p], started with the locks [h], takes lock [q] having the locks [h'], [R h' q]; and it returns only results in [F]. *)
Fixpoint lw {A} (F : A -> Prop) (R : lstate -> N -> Prop) (h : lstate) (p : prog A) : Prop :=
  match p with
  | Ret a => F a
  | Crash | Hang => True
  | Now k => forall x, lw F R h (k x)
  | Range _ k => forall x, lw F R h (k x)
  | DGet _ k => forall x, lw F R h (k x)
  | DSet _ _ k => forall x, lw F R h (k x)
  | DMut _ _ k => lw F R h k
  | DDel _ k => forall x, lw F R h (k x)
  | DSeg _ k => forall x, lw F R h (k x)
  | CntLoad k => forall x, lw F R h (k x)
  | CntStore _ k => lw F R h k
  | EGet _ k => forall x, lw F R h (k x)
  | ESet _ _ k => lw F R h k
  | EDel _ k => forall x, lw F R h (k x)
  | Acq q m k => R h q /\ forall h1, lstep h q m true h1 -> lw F R h1 k
  | Rel q m k => forall h1, lstep h q m false h1 -> lw F R h1 k
  end.
Lemma lw_prim {A} F R h T d (p : prog A) d' p' : lw F R h p -> prim T d p d' p' -> lw F R h p'.
Proof. intros H Hp. destruct Hp; cbn in H; auto. Qed.
Lemma hlocks_shrunk m l : hlocks (shrunk m l) = l.
Proof. destruct l; auto. Qed.
Lemma lstep_hlocks h p m b h1 x : lstep h p m b h1 -> x ∈ hlocks h1 -> x ∈ hlocks h \/ (b = true /\ x = p).
Proof.
  intros []; cbn; rewrite ?hlocks_shrunk.
  - intros Hx%elem_of_list_singleton. auto.
  - intros Hx. apply elem_of_app in Hx as [?|Hx]; [auto|]. apply elem_of_list_singleton in Hx. auto.
  - intros ?. left. right. auto.
  - intros ?. left. right. auto.
Qed.
Definition sub (K : bytes -> Prop) (h : lstate) : Prop := forall x, x ∈ hlocks h -> lock_of K x.
Lemma lw_of_wf {A C} (K : bytes -> Prop) u s h (p : prog A) (f : A -> prog C) F R : Wf.wf K u s Idle h p -> sub K h -> (forall a, lw F R Idle (f a)) ->
  (forall h q, sub K h -> lock_of K q -> R h q) -> lw F R h (pbind p f).
Proof.
  intros H Hs Hf HR. revert Hs. induction H; intros Hs; cbn; auto.
  - split; [auto|]. intros h1 Hl. inversion Hl; subst. apply IHwf. intros x Hx%elem_of_list_singleton. subst. auto.
  - split; [auto|]. intros h1 Hl. inversion Hl; subst. apply IHwf. intros x Hx. apply elem_of_app in Hx as [Hx|Hx]; [auto|]. apply elem_of_list_singleton in Hx. subst. auto.
  - intros h1 Hl. inversion Hl; subst. apply IHwf. intros x Hx. rewrite hlocks_shrunk in Hx. apply Hs. right. auto.
  - intros h1 Hl. inversion Hl; subst. apply IHwf. intros x Hx. rewrite hlocks_shrunk in Hx. apply Hs. right. auto.
Qed.
Lemma lw_client_from (F : list rdata -> Prop) (R : lstate -> N -> Prop) acc cmds : (forall h q cmd, cmd ∈ cmds -> sub (touched cmd) h -> lock_of (touched cmd) q -> R h q) -> (forall rs, length rs = (length acc + length cmds)%nat -> F rs) ->
  lw F R Idle (client_from acc cmds).
Proof.
  revert acc. induction cmds as [|c cmds IH]; intros acc HR HF; cbn [client_from]; [apply HF; cbn; lia|].
  eapply lw_of_wf; [exact (exec_wf c)|intros x Hx; inversion Hx| |intros h q; apply HR; left].
  intros x. apply IH; [intros; eapply HR; [right|..]; eauto|]. intros rs Hrs. apply HF. rewrite app_length in Hrs. cbn in *. lia.
Qed.

(** One step, with the locks held. *)
Lemma good_step_at {A} T (c c' : conf A) hs : good true true c hs -> cstep T c c' -> exists hs' j p p' b b', good true true c' hs' /\
  ths c !! j = Some (mkT p b) /\ ths c' = <[j := mkT p' b']> (ths c) /\
  ((hs' = hs /\ (p' = p \/ prim T (cdb c) p (cdb c') p')) \/
   (exists h h1 q m a, hs !! j = Some h /\ hs' = <[j := h1]> hs /\ lstep h q m a h1 /\ p = if a : bool then Acq q m p' else Rel q m p')).
Proof.
  intros G H. destruct H as [d L ts j p d' p' Hj Hp|d L ts j pos k n Hj HL|d L ts j pos k n Hj HL|d L ts j pos k Hj HL|d L ts j pos k n b Hj HL|d L ts j pos k n b Hj HL]; cbn.
  - exists hs, j, p, p', false, false. split; [eapply good_prim; eauto|]. auto 10.
  - destruct (get_h _ _ _ _ j _ G Hj) as (h & Hh & W1 & W2 & W3). cbn in W1. destruct (wf_inv_acq _ _ _ _ _ _ _ W1) as (h1 & Hl & Hw).
    exists (<[j := h1]> hs), j, (Acq pos MR k), k, false, false. split; [eapply good_lock; eauto; cbn; eauto|]. repeat split; auto. right. exists h, h1, pos, MR, true. auto.
  - exists hs, j, (Acq pos MW k), (Acq pos MW k), false, true. split; [eapply good_announce; eauto|]. auto 10.
  - destruct (get_h _ _ _ _ j _ G Hj) as (h & Hh & W1 & W2 & W3). cbn in W1. destruct (wf_inv_acq _ _ _ _ _ _ _ W1) as (h1 & Hl & Hw).
    exists (<[j := h1]> hs), j, (Acq pos MW k), k, true, false. split; [eapply good_lock; eauto; cbn; eauto|]. repeat split; auto. right. exists h, h1, pos, MW, true. auto.
  - destruct (get_h _ _ _ _ j _ G Hj) as (h & Hh & W1 & W2 & W3). cbn in W1. destruct (wf_inv_rel _ _ _ _ _ _ _ W1) as (h1 & Hl & Hw).
    exists (<[j := h1]> hs), j, (Rel pos MR k), k, false, false. split; [eapply good_unlock; eauto; cbn; eauto|]. repeat split; auto. right. exists h, h1, pos, MR, false. auto.
  - destruct (get_h _ _ _ _ j _ G Hj) as (h & Hh & W1 & W2 & W3). cbn in W1. destruct (wf_inv_rel _ _ _ _ _ _ _ W1) as (h1 & Hl & Hw).
    exists (<[j := h1]> hs), j, (Rel pos MW k), k, false, false. split; [eapply good_unlock; eauto; cbn; eauto|]. repeat split; auto. right. exists h, h1, pos, MW, false. auto.
Qed.

Lemma lookup_put {Y} (l : list Y) i j x y : <[i := x]> l !! j = Some y -> (i = j /\ y = x) \/ (i <> j /\ l !! j = Some y).
Proof. intros H. apply list_lookup_insert_Some in H. intuition. Qed.
Lemma steps_length {A} T (c c' : conf A) : rtc (cstep T) c c' -> length (ths c') = length (ths c).
Proof. induction 1 as [|c c1 c' H _ IH]; auto. rewrite IH. destruct H; cbn; apply insert_length. Qed.

Section Invariant.
Context (F : nat -> list rdata -> Prop) (R : nat -> lstate -> N -> Prop) (Q : nat -> N -> Prop).
Context (HQ : forall i h q, R i h q -> Q i q).
Definition goodl (c : conf (list rdata)) (hs : list lstate) : Prop :=
  good true true c hs /\ forall i t h, ths c !! i = Some t -> hs !! i = Some h -> lw (F i) (R i) h (tcode t) /\ forall x, x ∈ hlocks h -> Q i x.
Lemma goodl_step T c c' hs : goodl c hs -> cstep T c c' -> exists hs', goodl c' hs'.
Proof.
  intros [G Hg] H. destruct (good_step_at _ _ _ _ G H) as (hs' & j & p & p' & b & b' & G' & Hj & Hc & Hcase). exists hs'. split; auto.
  intros i t h Ht Hh. rewrite Hc in Ht. destruct Hcase as [[-> Hp]|(h0 & h1 & q & m & a & Hh0 & -> & Hl & ->)].
  - apply lookup_put in Ht as [[-> ->]|[Hn Ht]]; [|eauto]. cbn. destruct (Hg _ _ _ Hj Hh) as [H1 H2]. split; auto. cbn in H1. destruct Hp as [->|Hp]; auto. eapply lw_prim; eauto.
  - apply lookup_put in Ht as [[-> ->]|[Hn Ht]]; [|rewrite list_lookup_insert_ne in Hh by auto; eauto].
    apply lookup_put in Hh as [[_ ->]|[? _]]; [|congruence]. destruct (Hg _ _ _ Hj Hh0) as [H1 H2]. cbn in *. split.
    + destruct a; cbn in H1; [apply (proj2 H1)|apply H1]; auto.
    + intros x Hx. destruct (lstep_hlocks _ _ _ _ _ _ Hl Hx) as [?|[-> ->]]; auto. cbn in H1. eapply HQ, H1.
Qed.
Lemma goodl_steps T c c' : rtc (cstep T) c c' -> forall hs, goodl c hs -> exists hs', goodl c' hs'.
Proof. induction 1 as [c|c c1 c' Hs _ IH]; intros hs G; [eauto|]. destruct (goodl_step _ _ _ _ G Hs) as (hs1 & G1). eauto. Qed.
Lemma goodl_start d cs : (forall i cmds rs, cs !! i = Some cmds -> length rs = length cmds -> F i rs) ->
  (forall i cmds cmd h q, cs !! i = Some cmds -> cmd ∈ cmds -> sub (touched cmd) h -> lock_of (touched cmd) q -> R i h q) -> exists hs, goodl (clients d cs) hs.
Proof.
  intros HF HR. exists (map (fun _ => Idle) (map client cs)). split.
  - apply good_start. apply Forall_forall. intros p Hp. apply elem_of_list_In, elem_of_list_fmap in Hp as (cmds & -> & _). apply wf_client. auto.
  - intros i t h Ht Hh. rewrite list_lookup_fmap in Hh. unfold clients, start in Ht. cbn in Ht. rewrite list_lookup_fmap in Ht. rewrite list_lookup_fmap in Ht, Hh.
    destruct (cs !! i) as [cmds|] eqn:E; [|discriminate]. cbn in *. injection Ht as <-. injection Hh as <-. cbn. split; [|intros x Hx; inversion Hx].
    apply lw_client_from; [intros; eapply HR; eauto|]. intros rs Hrs. eapply HF; eauto.
Qed.
End Invariant.

Lemma held_hlocks m p h : (0 < held m p h)%nat -> p ∈ hlocks h.
Proof. destruct h as [|m' l|m' l]; cbn; [lia|..]; destruct (decide _) as [[_ ?]|]; auto; lia. Qed.

Section Holdup.
Context (T : Z -> Prop) (X : nat -> Prop) (L : N -> Prop) (d : db) (cs : list (list command)).
Context (HZ : forall j cmds key, X j -> cs !! j = Some cmds -> uses cmds key -> ~ L (lockpos key)).
Context (HC : forall j cmds cmd k k', ~ X j -> cs !! j = Some cmds -> cmd ∈ cmds -> touched cmd k -> touched cmd k' -> L (lockpos k) -> (lockpos k < lockpos k')%N -> L (lockpos k')).
Definition stays_in (i : nat) : Prop := exists cmds, cs !! i = Some cmds /\ forall key, uses cmds key -> L (lockpos key).
Definition Fh (i : nat) (rs : list rdata) : Prop := forall cmds, cs !! i = Some cmds -> length rs = length cmds.
Definition Rh (i : nat) (h : lstate) (q : N) : Prop :=
  (X i -> ~ L q) /\ (~ X i -> (exists x, x ∈ hlocks h /\ L x /\ (x < q)%N) -> L q) /\ (stays_in i -> L q).
Definition Qh (i : nat) (q : N) : Prop := X i -> ~ L q.
Lemma reach_goodl c : rtc (cstep T) (clients d cs) c -> exists hs, goodl Fh Rh Qh c hs.
Proof.
  intros Hr. destruct (goodl_start Fh Rh Qh d cs) as [hs G].
  - intros i cmds rs E Hl cmds' E'. congruence.
  - intros i cmds cmd h q E Hc Hs (key & Hk & <-). split; [|split].
    + intros Hz. eapply HZ; eauto. exists cmd; auto.
    + intros Hz (x & Hx & HL & Hlt). destruct (Hs x Hx) as (key' & Hk' & <-). eapply HC; eauto.
    + intros (cmds' & E' & Ho). assert (cmds' = cmds) as -> by congruence. apply Ho. exists cmd; auto.
  - eapply goodl_steps; eauto. intros i h q H. exact (proj1 H).
Qed.
Lemma chain c hs : goodl Fh Rh Qh c hs -> (forall j t, ~ X j -> ths c !! j = Some t -> ~ returned t -> waits c t) ->
  forall n i t p m k, ~ X i -> ths c !! i = Some t -> tcode t = Acq p m k -> L p -> (top (ths c) < p + N.of_nat n)%N -> False.
Proof.
  intros [G Hg] Hall. induction n as [|n IH]; intros i t p m k Hz Hi Ht HL Hn.
  - pose proof (top_ge _ _ _ Hi) as H. unfold wpos in H. rewrite Ht in H. lia.
  - assert (Hold : exists j t' h m', ths c !! j = Some t' /\ hs !! j = Some h /\ wft true true h t' /\ (0 < held m' p h)%nat).
    { assert (Hw : waits c t). { apply (Hall i); auto. intros [a E]. congruence. }
      assert (HR : rd (lk c p) <> 0%nat -> exists j t' h m', ths c !! j = Some t' /\ hs !! j = Some h /\ wft true true h t' /\ (0 < held m' p h)%nat).
      { intros Hr. destruct (held_by _ _ _ _ MR p G) as (j & t' & h & H); [rewrite <- (g_rd _ _ _ _ G); lia|]. exists j, t', h, MR. auto. }
      assert (HW : wr (lk c p) = true -> exists j t' h m', ths c !! j = Some t' /\ hs !! j = Some h /\ wft true true h t' /\ (0 < held m' p h)%nat).
      { intros Hr. destruct (held_by _ _ _ _ MW p G) as (j & t' & h & H); [rewrite <- (g_wr _ _ _ _ G), Hr; cbn; lia|]. exists j, t', h, MW. auto. }
      assert (HP : pend (lk c p) = true -> exists j t' h m', ths c !! j = Some t' /\ hs !! j = Some h /\ wft true true h t' /\ (0 < held m' p h)%nat).
      { intros Hr. assert (0 < total (wants p) (ths c))%nat as H by (rewrite <- (g_pend _ _ _ _ G), Hr; cbn; lia).
        destruct (total_pos _ _ H) as (j & t' & Hj & Hh). unfold wants in Hh.
        destruct (tcode t') as [ | | | | | | | | | | | | | | |q m' k'| ] eqn:E; try lia. destruct m'; [lia|].
        destruct (ann t') eqn:Ea; [|lia]. destruct (decide (q = p)) as [->|]; [|lia].
        destruct (get_h _ _ _ _ _ _ G Hj) as (h & Hhj & _). destruct (Hg _ _ _ Hj Hhj) as [Hlw _]. rewrite E in Hlw. cbn in Hlw.
        assert (Hw' : waits c t'). { apply (Hall j); auto. { intros Hz'. exact (proj1 (proj1 Hlw) Hz' HL). } intros [a E']. congruence. }
        unfold waits in Hw'. rewrite E, Ea in Hw'. auto. }
      unfold waits in Hw. rewrite Ht in Hw. destruct m; [tauto|]. destruct (ann t); tauto. }
    destruct Hold as (j & t' & h & m' & Hj & Hhj & W & Hh). destruct (Hg _ _ _ Hj Hhj) as [Hlw HQj].
    assert (Hzj : ~ X j) by (intros Hz'; exact (HQj p (held_hlocks _ _ _ Hh) Hz' HL)).
    destruct (holder_waits_above _ _ _ _ c _ _ W Hh) as (q & m2 & k2 & E & Hq).
    + apply (Hall j); auto. eapply unlocked_ret; eauto.
    + apply (IH j t' q m2 k2 Hzj Hj E); [|lia]. rewrite E in Hlw. cbn in Hlw. apply (proj1 (proj2 (proj1 Hlw)) Hzj). exists p. split; [eapply held_hlocks; eauto|auto].
Qed.
Lemma goes_on c i cmds : (exists x, T x) -> rtc (cstep T) (clients d cs) c -> (forall j t, ~ X j -> ths c !! j = Some t -> ~ halted t) -> at_rest X T c ->
  ~ X i -> cs !! i = Some cmds -> (forall key, uses cmds key -> L (lockpos key)) -> answered c i cmds.
Proof.
  intros [t0 Ht0] Hr Hh Hs Hz Hi Ho. destruct (reach_goodl c Hr) as [hs G].
  assert (Hall : forall j t, ~ X j -> ths c !! j = Some t -> ~ returned t -> waits c t).
  { intros j t Hzj Hj Hret. destruct (waits_dec c t) as [|Hw]; auto. exfalso.
    destruct (can_move _ _ _ _ _ _ _ _ (proj1 G) Ht0 Hj Hret Hw) as (c' & Hc & Hm); [intros E; apply (Hh j t); [auto..|left; auto]|intros E; apply (Hh j t); [auto..|right; auto]|].
    apply (Hs c'). split; auto. exists j. auto. }
  assert (exists t, ths c !! i = Some t) as [t Hti].
  { apply lookup_lt_is_Some. rewrite (steps_length _ _ _ Hr). unfold clients, start. cbn. rewrite !map_length. eapply lookup_lt_Some; eauto. }
  destruct (get_h _ _ _ _ _ _ (proj1 G) Hti) as (h & Hhi & _). destruct (proj2 G _ _ _ Hti Hhi) as [Hlw _].
  destruct (returned_dec t) as [[rs E]|Hret].
  - exists t, rs. rewrite E in Hlw. cbn in Hlw. auto.
  - exfalso. pose proof (Hall i t Hz Hti Hret) as Hw. unfold waits in Hw. destruct (tcode t) as [ | | | | | | | | | | | | | | |q m k| ] eqn:E; try tauto.
    apply (chain c hs G Hall (S (N.to_nat (top (ths c)))) i t q m k Hz Hti E); [|lia]. cbn in Hlw. apply (proj2 (proj2 (proj1 Hlw))). exists cmds. auto.
Qed.
End Holdup.

Lemma others_finite (X : nat -> Prop) (T : Z -> Prop) (c : conf (list rdata)) : Acc (fun c' c => others X T c c') c.
Proof.
  pose proof (advance_wf T c) as H. induction H as [c _ IH]. constructor. intros c' [Hs (i & _ & Hi)]. apply IH. split; auto. congruence.
Qed.
(** Clients that share no lock with those that stand still. *)
Lemma apart (T : Z -> Prop) (X : nat -> Prop) d cs c i cmds : (exists x, T x) -> rtc (cstep T) (clients d cs) c ->
  (forall j j' cmds cmds' key key', X j -> ~ X j' -> cs !! j = Some cmds -> cs !! j' = Some cmds' -> uses cmds key -> uses cmds' key' -> lockpos key <> lockpos key') ->
  (forall j t, ~ X j -> ths c !! j = Some t -> ~ halted t) -> at_rest X T c -> ~ X i -> cs !! i = Some cmds -> answered c i cmds.
Proof.
  intros HT Hr Ha Hh Hs Hz Hi.
  apply (goes_on T X (fun p => exists j cmds key, ~ X j /\ cs !! j = Some cmds /\ uses cmds key /\ lockpos key = p) d cs); auto.
  - intros j cmds0 key Hzj Hj Hu (j' & cmds' & key' & Hz' & Hj' & Hu' & E). eapply (Ha j j'); eauto.
  - intros j cmds0 cmd k k' Hzj Hj Hc Hk Hk' _ _. exists j, cmds0, k'. repeat split; auto. exists cmd; auto.
  - intros key Hu. exists i, cmds, key. auto.
Qed.
End WithParams.
