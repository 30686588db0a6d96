(** GET of a key that is only read. *)
From Verif Require Export OnlyReadMain.

Section WithParams.
Context {P : Setup}.
Lemma about_get ks n k : named n "get" -> str k ∈ ks -> about ks [n; k].
Proof.
  intros Hn Hk. unfold named in Hn. split.
  - exists (str k). left. unfold key_args. rewrite Hn. cbn. left.
  - intros k' [H|H]; [|unfold cmd_is in H; rewrite Hn in H; vm_compute in H; discriminate H].
    unfold key_args in H. rewrite Hn in H. match type of H with context [keykind_of ?x] => let r := eval vm_compute in (keykind_of x) in change (keykind_of x) with r in H end. cbn in H. apply elem_of_list_singleton in H as ->. exact Hk.
Qed.
Lemma get_runs T ks d n k s r : named n "get" -> lasting T ks d -> str k ∈ ks -> dict d !! str k = Some (VStr s) -> runs T d (exec_in_db [n; k]) (Done r d) -> r = RBulk s.
Proof.
  intros Hn HL Hk Hd. unfold exec_in_db. rewrite Hn. match goal with |- context [lookup_cmd ?x] => let r := eval hnf in (lookup_cmd x) in change (lookup_cmd x) with r end.
  unfold get_string, delete_expired_key, check_expire. cbn. intros H. inversion H; subst. clear H. destruct (exps d !! str k) as [t|] eqn:E; cbn in *.
  - match goal with H : runs _ _ (Now _) _ |- _ => inversion H; subst; clear H end.
    match goal with H : runs _ _ (pbind (if _ <? ?now then _ else _) _) _, Hn : T ?now |- _ => specialize (HL _ _ _ Hk E Hn); replace (t <? now) with false in H by (symmetry; apply Z.ltb_ge; exact HL) end. cbn in *.
    repeat match goal with H : runs _ _ (Acq _ _ _) _ |- _ => inversion H; subst; clear H | H : runs _ _ (DGet _ _) _ |- _ => inversion H; subst; clear H end. rewrite Hd in *. cbn in *.
    match goal with H : runs _ _ (Rel _ _ _) _ |- _ => inversion H; subst; clear H end. match goal with H : runs _ _ (Ret _) _ |- _ => inversion H; subst; reflexivity end.
  - repeat match goal with H : runs _ _ (Acq _ _ _) _ |- _ => inversion H; subst; clear H | H : runs _ _ (DGet _ _) _ |- _ => inversion H; subst; clear H end. rewrite Hd in *. cbn in *.
    match goal with H : runs _ _ (Rel _ _ _) _ |- _ => inversion H; subst; clear H end. match goal with H : runs _ _ (Ret _) _ |- _ => inversion H; subst; reflexivity end.
Qed.
Theorem only_read_get (T T' : Z -> Prop) sl ds n x y j c k s : rtc (happens T) (boot sl ds n) x -> rtc (happens T') x y ->
  wsel x = j -> wcores x !! j = Some c -> dict (cdb c) !! str k = Some (VStr s) -> (forall t now, exps (cdb c) !! str k = Some t -> T' now -> now <= t) ->
  (forall j i cmd, performs x j i cmd -> ~ touched cmd (str k)) -> (forall i cmd, since x y i cmd -> (touched cmd (str k) -> reading cmd) /\ is_select cmd = false) ->
  forall i p q m r, peers x !! i = Some p -> peers y !! i = Some q -> named m "get" -> ([m; k], r) ∈ drop (length (log (lnk p))) (log (lnk q)) -> r = RBulk s.
Proof.
  intros R R' Hs Hj Hd HL HN HS i p q m r Hp Hq Hm Hc.
  assert (HL' : lasting T' [str k] (cdb c)) by (intros k' t now Hk'; apply elem_of_list_singleton in Hk' as ->; apply HL).
  assert (Hin : str k ∈ [str k]) by left. refine (get_runs T' [str k] (cdb c) m k s r Hm HL' Hin Hd _).
  refine (only_read_answered T T' [str k] sl ds n x y j c R R' Hs Hj HL' _ _ i p q [m; k] r Hp Hq Hc (about_get _ _ _ Hm Hin)).
  - intros j' i' cmd k' Hp' Hk'. apply elem_of_list_singleton in Hk' as ->. eapply HN; eauto.
  - intros i' cmd Hc'. destruct (HS _ _ Hc') as [S1 S2]. split; [|exact S2]. intros k' Hk'. apply elem_of_list_singleton in Hk' as ->. exact S1.
Qed.
End WithParams.
