(** Expired keys beside other commands: what each reading command answers. *)
From Verif Require Export ExpiredProofs.

Section WithParams.
Context {P : Setup} (T : Z -> Prop) (t0 : Z) (HT : forall now, T now -> t0 < now).
Definition absent (a r : rdata) : Prop := r = a \/ exists e, r = RErr e /\ e ∉ value_errors.
Lemma absent_is a : absent a a.
Proof. left. reflexivity. Qed.
Lemma absent_err a e : bool_decide (e ∈ value_errors) = false -> absent a (RErr e).
Proof. intros H. right. exists e. split; auto. apply bool_decide_eq_false_1 in H. exact H. Qed.
Lemma lpos_err a args o r : lpos_opts args o = inr r -> absent a r.
Proof.
  revert args o. assert (G : forall m args o, (length args <= m)%nat -> lpos_opts args o = inr r -> absent a r); [|intros args o; apply (G (length args)); auto].
  induction m as [|m IH]; intros [|x [|y args]] o Hl; cbn in Hl; try lia; try discriminate. cbn [lpos_opts].
  assert (IH' : forall o', lpos_opts args o' = inr r -> absent a r) by (intros o'; apply IH; lia).
  repeat match goal with |- (if ?b then _ else _) = _ -> _ => destruct b | |- match ?b with _ => _ end = _ -> _ => destruct b end; eauto; intros [= <-]; try (apply absent_err; vm_compute; reflexivity).
Qed.
(** After the test for expiry the value is known to be gone. *)
Lemma one_key {C} (Q : bool -> C -> Prop) k (f : bool -> prog C) : (forall b, sees T k t0 Q true (f b)) -> sees T k t0 Q false (pbind (delete_expired_key k) f).
Proof. intros H. eapply sees_bind; [apply sees_dek; exact HT|]. cbn. intros g b [-> _]; auto. Qed.
Lemma gone_key {C} (Q : bool -> C -> Prop) k (f : option value -> prog C) : sees T k t0 Q true (f None) -> sees T k t0 Q true (pbind (dict_get k) f).
Proof. intros H. cbn. constructor. intros x Hx. rewrite Hx by auto. exact H. Qed.
Lemma locked_key {A} (Q : bool -> A -> Prop) k m key (p : prog A) : sees T k t0 Q true p -> sees T k t0 Q true (with_lock m key p).
Proof. intros H. unfold with_lock, lock, unlock. cbn. constructor. eapply sees_bind; [exact H|]. intros g a Ha. repeat constructor. exact Ha. Qed.
Ltac one_step :=
  match goal with
  | |- sees _ _ _ _ _ (Ret _) => apply E_ret; first [apply absent_is|apply absent_err; vm_compute; reflexivity|eapply lpos_err; eassumption]
  | |- sees _ _ _ _ _ (with_lock _ _ _) => apply locked_key
  | |- sees _ _ _ _ false (pbind (delete_expired_key _) _) => apply one_key; intros ?
  | |- sees _ _ _ _ _ (pbind (dict_get _) _) => apply gone_key
  | |- sees _ _ _ _ _ (match ?x with _ => _ end) => destruct x eqn:?
  | |- sees _ _ _ _ _ _ => progress cbv zeta beta
  | |- sees _ _ _ _ _ _ => progress wf_unf
  end.
Lemma one_cmd s a n key args : In (s, a) absent_replies -> named n s -> sees T (str key) t0 (fun _ r => absent a r) false (exec_in_db (n :: key :: args)).
Proof.
  intros HI Hn. unfold exec_in_db. unfold named in Hn. rewrite Hn. clear Hn. unfold absent_replies in HI. cbn [In] in HI.
  repeat (destruct HI as [[= <- <-]|HI]; [match goal with |- sees _ _ _ _ _ (match ?l with _ => _ end) => let r := eval hnf in l in change l with r end; cbv iota; repeat first [one_step|progress read_unf]|]). destruct HI.
Qed.
Lemma sees_exec k cmd : (touched cmd k -> reading cmd) -> sees T k t0 (fun _ r => as_missing k cmd r) false (exec_in_db cmd).
Proof.
  intros HR.
  assert (N : (forall n key args s a, cmd = n :: key :: args -> str key = k -> In (s, a) absent_replies -> ~ named n s) -> forall r, as_missing k cmd r).
  { intros H r n key args s a E1 E2 E3 E4. destruct (H _ _ _ _ _ E1 E2 E3 E4). }
  assert (D : {touched cmd k} + {~ touched cmd k}).
  { unfold touched. destruct (decide (k ∈ key_args cmd)); [left; auto|]. destruct (cmd_is "keys" cmd); [left; auto|right; intros [?|?]; [auto|discriminate]]. }
  destruct D as [D|D].
  - destruct cmd as [|n [|key args]].
    + eapply sees_weaken; [exact (any_cmd T k t0 HT false _ (HR D))|]. intros _ r _. apply N. discriminate.
    + eapply sees_weaken; [exact (any_cmd T k t0 HT false _ (HR D))|]. intros _ r _. apply N. discriminate.
    + destruct (decide (str key = k)) as [<-|Hk]; [|eapply sees_weaken; [exact (any_cmd T k t0 HT false _ (HR D))|]; intros _ r _; apply N; intros ? ? ? ? ? [= <- <- <-] ?; contradiction].
      destruct (decide (Exists (fun e => named n e.1) absent_replies)) as [E|E].
      * apply Exists_exists in E as ([s a] & Hi & Hn). cbn in Hn. eapply sees_weaken; [exact (one_cmd s a n key args Hi Hn)|].
        intros g r Hr n' key' args' s' a' [= <- <- <-] _ Hi' Hn'. assert (a' = a) as ->; [|exact Hr].
        assert (s' = s) as -> by (unfold named in *; rewrite Hn in Hn'; apply (f_equal string_of_list_ascii) in Hn'; unfold B in Hn'; rewrite !string_of_list_ascii_of_string in Hn'; auto).
        revert Hi Hi'. clear. unfold absent_replies. cbn [In]. intuition congruence.
      * eapply sees_weaken; [exact (any_cmd T (str key) t0 HT false _ (HR D))|]. intros _ r _. apply N. intros n' key' args' s' a' [= <- <- <-] _ Hi Hn. apply E, Exists_exists. exists (s', a'). split; auto.
  - assert (Q : forall r, as_missing k cmd r).
    { apply N. intros n key args s a -> <- Hi Hn. apply D. left. unfold key_args. unfold named in Hn. rewrite Hn. revert Hi. clear. unfold absent_replies. cbn [In].
      intros Hi. repeat (destruct Hi as [[= <- <-]|Hi]; [match goal with |- context [keykind_of ?x] => let r := eval vm_compute in (keykind_of x) in change (keykind_of x) with r end; cbn; left|]). destruct Hi. }
    eapply (may_sees _ _ _ _ _ (fun _ r => as_missing k cmd r)); [intros; apply Q|exact (owns_exec cmd)| |exact D]. intros [H _]. apply D. left. exact H.
Qed.
End WithParams.
