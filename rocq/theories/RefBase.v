(** Proof machinery for the reference. *)
From Verif Require Export SpecRef SpecPanic StringsProofs SetProofs KeysProofs KeysKeys GlobKeys HashProofs ListProofs LposProofs SetCmdProofs Reads PanicExact.

Section WithParams.
Context {P : Setup}.

Lemma lingers_expired now d k : Inv d -> lingers now (raw d k) = expired now d k.
Proof.
  intros HI. unfold lingers, raw, expired. destruct (dict d !! k) eqn:E; auto.
  rewrite (raw_None k d HI E). auto.
Qed.

(** The command [cmd], run on [d] at time [now], obeys [m]. *)
Definition meets (now : Z) (d : db) (cmd : command) (m : meaning) : Prop :=
  forall r d', step now d cmd (Done r d') ->
    exists S', m now (view now d) (fun k => lingers now (raw d k)) r S' /\
      forall k, view now d' k = live now (S' k) /\
        (lingers now (raw d' k) = true -> lingers now (raw d k) = true \/ lingers now (S' k) = true).

Definition oks {A} (Q : A -> db -> Prop) (out : outcome A) : Prop := match out with Done r d' => Q r d' | _ => True end.

Lemma meets_wp now d cmd (Q : rdata -> db -> Prop) (m : meaning) :
  wp (eq now) d (exec_in_db cmd) (oks Q) ->
  (forall r d', Q r d' -> exists S', m now (view now d) (fun k => lingers now (raw d k)) r S' /\
      forall k, view now d' k = live now (S' k) /\
        (lingers now (raw d' k) = true -> lingers now (raw d k) = true \/ lingers now (S' k) = true)) ->
  meets now d cmd m.
Proof. intros H HQ r d' Hst. apply HQ. eapply wp_sound in H; [|exact Hst]. exact H. Qed.

Lemma lingers_sim now d' d k : sim now d' d -> lingers now (raw d' k) = true -> lingers now (raw d k) = true.
Proof. intros H. destruct (H k) as [->|[-> _]]; [auto|discriminate]. Qed.

(** Only expired keys are collected. *)
Lemma meets_sim now d cmd (R : rdata -> Prop) (m : meaning) :
  wp (eq now) d (exec_in_db cmd) (oks (fun r d' => R r /\ sim now d' d)) ->
  (forall r S', R r -> same (view now d) S' -> m now (view now d) (fun k => lingers now (raw d k)) r S') ->
  meets now d cmd m.
Proof.
  intros H Hm. eapply meets_wp; [exact H|]. intros r d' [HR Hs]. exists (view now d). split.
  - apply Hm; auto. intros k; auto.
  - intros k. split.
    + rewrite live_view by lia. apply (sim_view now); auto; lia.
    + intros Hl. left. eapply lingers_sim; eauto.
Qed.
Lemma meets_say now d cmd r0 :
  wp (eq now) d (exec_in_db cmd) (oks (fun r d' => r = r0 /\ sim now d' d)) -> meets now d cmd (say r0).
Proof. intros H. eapply (meets_sim now d cmd (fun r => r = r0)); [exact H|]. intros r S' -> HS. split; auto. Qed.

(** Only one key changes. *)
Lemma meets_on now d cmd k F :
  wp (eq now) d (exec_in_db cmd) (oks (fun r d' => F now (view now d (str k)) r (raw d' (str k)) /\
     forall k', k' <> str k -> raw d' k' = raw d k')) -> meets now d cmd (on k F).
Proof.
  intros H. eapply meets_wp; [exact H|]. intros r d' [HF Hfr].
  exists (fun k' => if decide (k' = str k) then raw d' (str k) else view now d k'). split.
  - exists (raw d' (str k)). split; auto. split; [rewrite decide_True; auto|]. intros; rewrite decide_False; auto.
  - intros k'. destruct (decide (k' = str k)) as [->|Hne].
    + split; [apply view_raw|auto].
    + rewrite live_view by lia. rewrite !view_raw, Hfr by auto. auto.
Qed.
Lemma meets_onf now d cmd k f :
  wp (eq now) d (exec_in_db cmd) (oks (fun r d' => (r, raw d' (str k)) = f now (view now d (str k)) /\
     forall k', k' <> str k -> raw d' k' = raw d k')) -> meets now d cmd (onf k f).
Proof. intros H. apply (meets_on now d cmd k (fun now e r e' => (r, e') = f now e)). exact H. Qed.

(** From a weakest precondition of the usual shape. *)
Lemma oks_done {A} T d (p : prog A) (Q : A -> db -> Prop) :
  wp T d p (fun out => exists r d', out = Done r d' /\ Inv d' /\ Q r d') -> wp T d p (oks Q).
Proof. apply wp_mono. intros out (r & d' & -> & _ & H). exact H. Qed.

(** From a theorem about the visible keyspace, for commands that set no deadline. *)
Definition sets_no_deadline (cmd : command) : Prop := forall n args s, cmd = n :: args -> In s deadline_names -> ~ named n s.
Lemma step_fewer now d cmd r d' : Inv d -> sets_no_deadline cmd -> step now d cmd (Done r d') -> fewer d d'.
Proof.
  intros HI Hn Hst.
  assert (H : no_new_deadline (exec_in_db cmd)).
  { apply exec_deadline. apply forallb_forall. intros s Hs. destruct cmd as [|n args]; [reflexivity|].
    specialize (Hn n args s eq_refl Hs). unfold cmd_is. destruct (bool_decide _) eqn:E; [|reflexivity].
    exfalso. apply Hn. apply bool_decide_eq_true in E. exact E. }
  pose proof (wp_sound _ _ _ _ _ (runs_mono _ (fun _ => True) _ _ _ (fun _ _ => I) Hst) (H d HI)) as Hf.
  exact (proj2 Hf).
Qed.
Lemma fewer_lingers now d d' k : Inv d -> fewer d d' -> lingers now (raw d' k) = true -> lingers now (raw d k) = true.
Proof.
  intros HI Hf H. rewrite (lingers_expired now d) by auto. unfold lingers, raw in H. unfold expired.
  destruct (dict d' !! k); [|discriminate]. destruct (exps d' !! k) eqn:E; [|discriminate]. rewrite (Hf _ _ E). exact H.
Qed.
Lemma other_name n args s : named n s -> ~ In s deadline_names -> sets_no_deadline (n :: args).
Proof.
  intros Hn Hs n' args' s' [= <- <-] Hin Hn'. apply Hs.
  unfold named in *. rewrite Hn in Hn'. clear Hs Hn. unfold deadline_names in *. cbn [In] in *.
  destruct Hin as [<-|[<-|[<-|[<-|[]]]]].
  all: destruct s as [|? [|? [|? [|? [|? [|? [|? s]]]]]]]; try discriminate Hn'; cbn in Hn'; simplify_eq; auto.
Qed.
Lemma meets_impl (pre : Z -> db -> Prop) now d cmd spec (m : meaning) : implements_on pre cmd spec -> Inv d ->
  sets_no_deadline cmd -> (~ panics now d cmd -> pre now d) ->
  (forall r S', spec now (view now d) r S' -> m now (view now d) (fun k => lingers now (raw d k)) r S') -> meets now d cmd m.
Proof.
  intros H HI Hn Hp Hm r d' Hst.
  destruct (H now d (Done r d') HI) as (r1 & d1 & S' & E & _ & Hs & Hv); auto.
  { apply Hp. intros Hpan. apply (panics_exact now d cmd _ HI Hst) in Hpan as [? ?]. discriminate. }
  injection E as <- <-. exists S'. split; [auto|]. intros k. split; [apply Hv; lia|].
  intros Hl. left. eapply fewer_lingers; eauto using step_fewer.
Qed.
Lemma meets_plain now d cmd spec : implements cmd spec -> Inv d -> sets_no_deadline cmd -> meets now d cmd (plain spec).
Proof. intros H HI Hn. apply (meets_impl (fun _ _ => True) now d cmd spec); auto. Qed.

(** A lingering key. *)
Lemma meets_gone now d cmd k r0 m : Inv d ->
  (expired now d (str k) = true -> meets now d cmd (say r0)) ->
  (expired now d (str k) = false -> meets now d cmd m) -> meets now d cmd (if_gone k r0 m).
Proof.
  intros HI H1 H2. destruct (expired now d (str k)) eqn:E; unfold meets, if_gone; rewrite lingers_expired, E by auto; [apply H1|apply H2]; auto.
Qed.
End WithParams.

Ltac nodl Hn := eapply other_name; [exact Hn|unfold deadline_names; cbn [In]; intuition discriminate].
(** The command was refused on its arguments. *)
Ltac refuse Hn := apply meets_say; exec_cmd Hn; cbn; split; [reflexivity|apply sim_refl].
Ltac refused Hn := exec_cmd Hn; cbn; split; [reflexivity|apply sim_refl].

(** The meaning of the command called [s]. *)
Definition ref_of {P : Setup} (s : string) : list val -> meaning :=
  match List.find (fun p => String.eqb (fst p) s) reference with Some p => snd p | None => fun _ => say err_args end.
Ltac open_ref := lazy [ref_of reference List.find fst snd String.eqb Ascii.eqb Bool.eqb]; cbv beta iota.
Ltac args_are l := repeat (try (destruct l as [|?a l])).
