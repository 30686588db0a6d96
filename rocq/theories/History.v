(** Frame, invariant and history lemmas. *)
From Verif Require Export KeysProofs StringsProofs SetProofs.
From Verif Require Export Expired Ints.

Definition odb {A} (o : outcome A) : db := match o with Done _ d | Crashes d | Hangs d => d end.

Section WithParams.
Context {P : Setup}.

Lemma wf_frame {A} K u s h' h (p : prog A) T d out : Wf.wf K u s h' h p -> runs T d p out ->
  forall k, ~ K k -> raw (odb out) k = raw d k.
Proof.
  intros Hw Hr k Hk. revert h Hw. induction Hr; intros h Hw; inversion Hw; subst; cbn [odb] in *; eauto;
    try match goal with IH : forall h, Wf.wf _ _ _ _ h _ -> _ |- _ => erewrite IH by eauto end;
    unfold raw; cbn [dict exps];
    repeat match goal with
      | |- context [<[?a := _]> _ !! ?b] => rewrite (lookup_insert_ne _ a b) by congruence
      | |- context [delete ?a _ !! ?b] => rewrite (lookup_delete_ne _ a b) by congruence
      | |- context [alter _ ?a _ !! ?b] => rewrite (lookup_alter_ne _ _ a b) by congruence
      end; reflexivity.
Qed.

Lemma runs_inv T d cmd r d' : Inv d -> runs T d (exec_in_db cmd) (Done r d') -> Inv d'.
Proof.
  intros HI Hr. pose proof (exec_inv cmd d HI) as H. apply (runs_mono T (fun _ => True)) in Hr; [|auto].
  apply (wp_sound _ _ _ _ _ Hr) in H. cbn in H. tauto.
Qed.
Lemma step_inv now d cmd r d' : Inv d -> step now d cmd (Done r d') -> Inv d'.
Proof. apply runs_inv. Qed.
Lemma reachable_inv d : reachable d -> Inv d.
Proof. induction 1; [apply inv_empty|]. eapply runs_inv; eauto. Qed.
Lemma step_total now d cmd : exists out, step now d cmd out.
Proof. eexists. apply run_runs. Qed.

Lemma step_reads now d n args r d' t k : Inv d -> to_lower (str n) ∈ map B read_names ->
  step now d (n :: args) (Done r d') -> now <= t -> view t d' k = view t d k.
Proof.
  intros HI Hn Hst Ht. pose proof (exec_reads now n args Hn d HI) as H.
  apply (wp_sound _ _ _ _ _ Hst) in H. cbn in H. destruct H as [_ H]. eapply sim_view; eauto.
Qed.
Lemma step_frame now d cmd r d' t k : Inv d -> step now d cmd (Done r d') -> k ∉ key_args cmd -> now <= t ->
  view t d' k = view t d k.
Proof.
  intros HI Hst Hk Ht. destruct (cmd_is "keys" cmd) eqn:E.
  - destruct cmd as [|n args]; [discriminate|]. eapply step_reads; eauto.
    unfold cmd_is in E. apply bool_decide_eq_true in E. rewrite E. vm_compute. 
    repeat (first [apply elem_of_list_here | apply elem_of_list_further]).
  - rewrite !view_raw. f_equal. apply (wf_frame _ _ _ _ _ _ _ _ _ (exec_wf cmd) Hst).
    unfold touched. intros [H|H]; [auto|congruence].
Qed.

Lemma step_leaves now d cmd r d' t k : Inv d -> step now d cmd (Done r d') -> leaves k cmd -> now <= t ->
  view t d' k = view t d k.
Proof. intros HI Hst [Hk|(n & args & -> & Hn)] Ht; [eapply step_frame|eapply step_reads]; eauto. Qed.

Lemma hist_inv t d l d' : Inv d -> hist t d l d' -> Inv d'.
Proof. intros HI H. revert HI. induction H; auto. intros HI. apply IHhist. eapply step_inv; eauto. Qed.
Lemma hist_time t d l d' : hist t d l d' -> t <= last_time t l.
Proof. induction 1; cbn; lia. Qed.
Lemma hist_leaves t d l d' k : Inv d -> hist t d l d' -> Forall (fun e => leaves k e.1.2) l ->
  forall u, last_time t l <= u -> view u d' k = view u d k.
Proof.
  intros HI H. revert HI. induction H as [|t d t1 cmd r d1 l d' Ht Hst H IH]; intros HI HF u Hu; [auto|].
  inversion HF as [|? ? Hc HF']; subst. cbn in Hu, Hc. pose proof (hist_time _ _ _ _ H).
  rewrite IH by (eauto using step_inv). eapply step_leaves; eauto. lia.
Qed.
Lemma hist_app t d l1 l2 d2 : hist t d (l1 ++ l2) d2 ->
  exists d1, hist t d l1 d1 /\ hist (last_time t l1) d1 l2 d2.
Proof.
  revert t d. induction l1 as [|[[t1 c] r] l1 IH]; intros t d H; cbn in *.
  - exists d. split; [constructor|exact H].
  - inversion H; subst. match goal with Hh : hist _ _ (l1 ++ l2) _ |- _ => destruct (IH _ _ Hh) as (d3 & H1 & H2) end. exists d3. split; [econstructor; eauto|exact H2].
Qed.

(** ** Histories around one key *)
Lemma fun_step now d cmd k f out : implements cmd (single_fun k f) -> Inv d -> step now d cmd out ->
  exists r d' e, out = Done r d' /\ (r, e) = f now (view now d k) /\ forall t, now <= t -> view t d' k = live t e.
Proof.
  intros H HI Hst. destruct (H now d out HI I Hst) as (r & d' & S' & -> & _ & (e & Hf & He & _) & HV).
  exists r, d', e. repeat split; auto. intros t Ht. rewrite HV, He; auto.
Qed.
Lemma rel_step now d cmd k F out : implements cmd (single k F) -> Inv d -> step now d cmd out ->
  exists r d' e, out = Done r d' /\ F now (view now d k) r e /\ forall t, now <= t -> view t d' k = live t e.
Proof.
  intros H HI Hst. destruct (H now d out HI I Hst) as (r & d' & S' & -> & _ & (e & Hf & He & _) & HV).
  exists r, d', e. repeat split; auto. intros t Ht. rewrite HV, He; auto.
Qed.

Lemma live_until v dl u : holds_until dl u -> live u (Some (v, dl)) = Some (v, dl).
Proof. destruct dl; cbn; auto. intros. destruct (Z.ltb_spec z u); [lia|auto]. Qed.

Lemma set_get n k v g t d d1 l d2 u out :
  Inv d -> named n "set" -> step t d [n; k; v] (Done ok d1) ->
  hist t d1 l d2 -> Forall (fun e => leaves (str k) e.1.2) l -> last_time t l <= u ->
  named g "get" -> step u d2 [g; k] out -> exists d3, out = Done (RBulk v) d3.
Proof.
  intros HI Hn Hst Hh Hl Hu Hg Hg2.
  assert (Hv : forall u, t <= u -> view u d1 (str k) = Some (VStr v, None)).
  { intros u0 Hu0. pose proof (set_ok n k v [] [] Hn Sp_nil) as H.
    assert (Hok : setopts_ok []) by (split; [cbn; lia|intros [H1 _]; inversion H1]).
    destruct (rel_step _ _ _ _ _ _ (H Hok) HI Hst) as (r & d' & e & E & Hs & HV). injection E as <- <-.
    rewrite HV by auto.
    assert (Hd : forall o n, set_deadline [] t o n -> n = None) by (intros o n0 (_ & _ & _ & H3); apply H3; reflexivity).
    unfold set_spec in Hs. destruct (view t d (str k)) as [[[] dl]|];
      repeat match type of Hs with context [decide (?x ∈ [])] => destruct (decide (x ∈ [])) as [Hx|]; [inversion Hx|] end.
    1: destruct Hs as (dl' & -> & Hd' & _); rewrite (Hd _ _ Hd'); reflexivity.
    1,2,3: destruct Hs as [_ Hs]; discriminate Hs.
    destruct Hs as (dl' & -> & Hd' & _). rewrite (Hd _ _ Hd'). reflexivity. }
  pose proof (step_inv _ _ _ _ _ HI Hst) as HI1. pose proof (hist_inv _ _ _ _ HI1 Hh) as HI2.
  pose proof (hist_time _ _ _ _ Hh).
  destruct (fun_step _ _ _ _ _ _ (get_ok g k Hg) HI2 Hg2) as (r & d3 & e & -> & Hf & _).
  rewrite (hist_leaves _ _ _ _ (str k) HI1 Hh Hl u Hu), Hv in Hf by lia. cbn in Hf. injection Hf as -> ->. eauto.
Qed.

Lemma expire_ttl n k a i w t d v dl r d1 l d2 u out :
  Inv d -> view t d (str k) = Some (v, dl) -> named n "expire" -> atoi (str a) = Some i ->
  min_int <= t + i <= max_int -> step t d [n; k; a] (Done r d1) ->
  hist t d1 l d2 -> Forall (fun e => leaves (str k) e.1.2) l -> last_time t l <= u ->
  named w "ttl" -> step u d2 [w; k] out ->
  r = RInt 1 /\
  view u d2 (str k) = (if u <=? t + i then Some (v, Some (t + i)) else None) /\
  exists d3, out = Done (RInt (if u <=? t + i then t + i - u else -2)) d3.
Proof.
  intros HI Hv Hn Ha Hr Hst Hh Hl Hu Hw Hs2.
  destruct (fun_step _ _ _ _ _ _ (expire3_ok n k a i Hn Ha) HI Hst) as (r' & d' & e & E & Hf & HV).
  injection E as <- <-. rewrite Hv in Hf. cbn in Hf. rewrite wrap64_small in Hf by auto. injection Hf as -> ->.
  pose proof (step_inv _ _ _ _ _ HI Hst) as HI1. pose proof (hist_inv _ _ _ _ HI1 Hh) as HI2.
  pose proof (hist_time _ _ _ _ Hh).
  assert (Hview : view u d2 (str k) = (if u <=? t + i then Some (v, Some (t + i)) else None)).
  { rewrite (hist_leaves _ _ _ _ (str k) HI1 Hh Hl u Hu), HV by lia. cbn.
    destruct (Z.ltb_spec (t + i) u), (Z.leb_spec u (t + i)); auto; lia. }
  repeat split; [exact Hview|].
  destruct (fun_step _ _ _ _ _ _ (ttl_ok w k Hw) HI2 Hs2) as (r & d3 & e & -> & Hf & _).
  rewrite Hview in Hf. destruct (Z.leb_spec u (t + i)); cbn in Hf; injection Hf as -> ->; eexists; [|reflexivity].
  rewrite wrap64_small; [reflexivity|]. apply atoi_range in Ha. unfold min_int, max_int in *. lia.
Qed.

Lemma persist_forever n k w t d v dl r d1 l d2 u out :
  Inv d -> view t d (str k) = Some (v, dl) -> named n "persist" -> step t d [n; k] (Done r d1) ->
  hist t d1 l d2 -> Forall (fun e => leaves (str k) e.1.2) l -> last_time t l <= u ->
  named w "ttl" -> step u d2 [w; k] out ->
  r = RInt 1 /\ view u d2 (str k) = Some (v, None) /\ exists d3, out = Done (RInt (-1)) d3.
Proof.
  intros HI Hv Hn Hst Hh Hl Hu Hw Hs2.
  destruct (rel_step _ _ _ _ _ _ (persist_ok n k Hn) HI Hst) as (r' & d' & e & E & Hf & HV).
  injection E as <- <-. rewrite Hv in Hf. cbn in Hf. destruct Hf as [-> ->].
  pose proof (step_inv _ _ _ _ _ HI Hst) as HI1. pose proof (hist_inv _ _ _ _ HI1 Hh) as HI2.
  pose proof (hist_time _ _ _ _ Hh).
  assert (Hview : view u d2 (str k) = Some (v, None)).
  { rewrite (hist_leaves _ _ _ _ (str k) HI1 Hh Hl u Hu), HV by lia. reflexivity. }
  repeat split; [exact Hview|].
  destruct (fun_step _ _ _ _ _ _ (ttl_ok w k Hw) HI2 Hs2) as (r & d3 & e & -> & Hf & _).
  rewrite Hview in Hf. cbn in Hf. injection Hf as -> ->. eauto.
Qed.

Lemma append_history k l x : appends k l x -> forall t d s dl d',
  Inv d -> view t d k = Some (VStr s, dl) -> holds_until dl (last_time t l) -> hist t d l d' ->
  exists s', view (last_time t l) d' k = Some (VStr s', dl) /\ str s' = str s ++ x.
Proof.
  induction 1 as [|t1 cmd r l x Hc Ha IH|t1 n k' a r l x Hn <- Ha IH]; intros t d s dl d' HI Hv Hu Hh;
    inversion Hh as [|? ? ? ? ? d1 ? ? Ht Hst Hrest]; subst; cbn [last_time] in *.
  - exists s. rewrite app_nil_r. auto.
  - match goal with Hh : hist t1 _ l _ |- _ => pose proof (hist_time _ _ _ _ Hh) end.
    eapply IH; [eapply step_inv; eauto| |..]; eauto.
    rewrite (step_leaves _ _ _ _ _ t1 _ HI Hst Hc) by lia.
    rewrite <- (live_view t t1) by auto. rewrite Hv. apply live_until. destruct dl; cbn in *; lia.
  - match goal with Hh : hist t1 _ l _ |- _ => pose proof (hist_time _ _ _ _ Hh) end.
    match goal with Hs : step _ _ _ _ |- _ => destruct (rel_step _ _ _ _ _ _ (append_ok n k' a Hn) HI Hs)
       as (r' & d'' & e & E & Hf & HV); injection E as <- <- end.
    rewrite <- (live_view t t1), Hv, live_until in Hf by (auto; destruct dl; cbn in *; auto; lia).
    cbn in Hf. destruct Hf as (nv & -> & Hs & _).
    destruct (IH t1 d1 nv dl d') as (s' & Hv' & Hs'); [eapply step_inv; eauto| |auto|auto|].
    { rewrite HV by lia. apply live_until. destruct dl; cbn in *; auto; lia. }
    exists s'. split; auto. rewrite Hs', Hs, <- app_assoc. reflexivity.
Qed.

Lemma counter_history k l z : counts k l z -> forall t d s x dl d',
  Inv d -> view t d k = Some (VStr s, dl) -> atoi (str s) = Some x -> holds_until dl (last_time t l) ->
  hist t d l d' ->
  exists s', view (last_time t l) d' k = Some (VStr s', dl) /\ atoi (str s') = Some (wrap64 (x + z)).
Proof.
  assert (Hone : forall l t1 (d : db) t s x dl r d1 cmd i bad, Inv d -> view t d k = Some (VStr s, dl) ->
            atoi (str s) = Some x -> holds_until dl (last_time t1 l) -> t <= t1 -> t1 <= last_time t1 l ->
            implements cmd (single_fun k (counter_spec i bad)) -> step t1 d cmd (Done r d1) ->
            exists s', view t1 d1 k = Some (VStr s', dl) /\ atoi (str s') = Some (wrap64 (x + i))).
  { intros l0 t1 d t s x dl r d1 cmd i bad HI Hv Hx Hu Ht Ht1 Him Hst.
    destruct (fun_step _ _ _ _ _ _ Him HI Hst) as (r' & d'' & e & E & Hf & HV); injection E as <- <-.
    rewrite <- (live_view t t1), Hv, live_until in Hf by (auto; destruct dl; cbn in *; auto; lia).
    cbn in Hf. rewrite Hx in Hf. injection Hf as -> ->. eexists. split.
    { rewrite HV by lia. apply live_until. destruct dl; cbn in *; auto; lia. }
    cbn. apply atoi_fmt_int. apply wrap64_range. }
  induction 1 as [|t1 cmd r l z Hc Ha IH|t1 n k' r l z Hn Hk Ha IH|t1 n k' r l z Hn Hk Ha IH
    |t1 n k' a i r l z Hn Hk Hi Ha IH|t1 n k' a i r l z Hn Hk Hi Ha IH]; intros t d s x dl d' HI Hv Hx Hu Hh;
    inversion Hh as [|? ? ? ? ? d1 ? ? Ht Hst Hrest]; subst; cbn [last_time] in *;
    try match goal with Hh : hist t1 _ l _ |- _ => pose proof (hist_time _ _ _ _ Hh) end.
  { exists s. split; auto. rewrite Z.add_0_r, wrap64_small by (eapply atoi_range; eauto). auto. }
  { eapply IH; [eapply step_inv; eauto| |..]; eauto.
    rewrite (step_leaves _ _ _ _ _ t1 _ HI Hst Hc) by lia.
    rewrite <- (live_view t t1) by auto. rewrite Hv. apply live_until. destruct dl; cbn in *; lia. }
  all: pose proof (step_inv _ _ _ _ _ HI Hst) as HI1; apply hist_time in Hrest as Hlast.
  - destruct (Hone l t1 d t s x dl r d1 [n; k'] 1 err_int HI Hv Hx Hu Ht Hlast (incr_ok _ _ Hn) Hst) as (s1 & Hv1 & Hx1).
    destruct (IH _ _ _ _ _ _ HI1 Hv1 Hx1 Hu Hrest) as (s2 & Hv2 & Hx2).
    exists s2; split; [exact Hv2|]; rewrite Hx2, wrap64_add_l; do 2 f_equal; lia.
  - destruct (Hone l t1 d t s x dl r d1 [n; k'] (-1) err_int HI Hv Hx Hu Ht Hlast (decr_ok _ _ Hn) Hst) as (s1 & Hv1 & Hx1).
    destruct (IH _ _ _ _ _ _ HI1 Hv1 Hx1 Hu Hrest) as (s2 & Hv2 & Hx2).
    exists s2; split; [exact Hv2|]; rewrite Hx2, wrap64_add_l; do 2 f_equal; lia.
  - destruct (Hone l t1 d t s x dl r d1 [n; k'; a] i _ HI Hv Hx Hu Ht Hlast (incrby_ok _ _ _ _ Hn Hi) Hst) as (s1 & Hv1 & Hx1).
    destruct (IH _ _ _ _ _ _ HI1 Hv1 Hx1 Hu Hrest) as (s2 & Hv2 & Hx2).
    exists s2; split; [exact Hv2|]; rewrite Hx2, wrap64_add_l; do 2 f_equal; lia.
  - destruct (Hone l t1 d t s x dl r d1 [n; k'; a] (- i) _ HI Hv Hx Hu Ht Hlast (decrby_ok _ _ _ _ Hn Hi) Hst) as (s1 & Hv1 & Hx1).
    destruct (IH _ _ _ _ _ _ HI1 Hv1 Hx1 Hu Hrest) as (s2 & Hv2 & Hx2).
    exists s2; split; [exact Hv2|]; rewrite Hx2, wrap64_add_l; do 2 f_equal; lia.
Qed.

(** Deadlines come only from the commands meant to set them. *)
Lemma step_deadline now d cmd r d' k v t : Inv d ->
  (forall n args s, cmd = n :: args -> In s deadline_names -> ~ named n s) ->
  step now d cmd (Done r d') -> view now d' k = Some (v, Some t) -> exists v0, view now d k = Some (v0, Some t).
Proof.
  intros HI Hn Hst Hv.
  assert (H : no_new_deadline (exec_in_db cmd)).
  { apply exec_deadline. apply forallb_forall. intros s Hs. destruct cmd as [|n args]; [reflexivity|].
    specialize (Hn n args s eq_refl Hs). unfold cmd_is. destruct (bool_decide _) eqn:E; [|reflexivity].
    exfalso. apply Hn. apply bool_decide_eq_true in E. exact E. }
  pose proof (wp_sound _ _ _ _ _ (runs_mono _ (fun _ => True) _ _ _ (fun _ _ => I) Hst) (H d HI)) as Hf. cbn in Hf.
  destruct Hf as [_ Hf]. unfold view in *. destruct (dict d' !! k) as [v'|]; [|discriminate].
  destruct (exps d' !! k) as [t'|] eqn:E; cbn in Hv; [|discriminate].
  destruct (Z.ltb_spec t' now); [discriminate|]. injection Hv as <- <-. apply Hf in E.
  destruct (proj1 HI k) as [v0 Hv0]; [eauto|]. exists v0. rewrite Hv0, E. cbn.
  destruct (Z.ltb_spec t' now); [lia|auto].
Qed.
End WithParams.
