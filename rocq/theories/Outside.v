(** Clients and operating system are free in what they do. *)
From Verif Require Export WorldMain.

Section WithParams.
Context {P : Setup}.
Theorem outside_free (T : Z -> Prop) sl ds n x i p : rtc (happens T) (boot sl ds n) x -> now_is x = Running -> peers x !! i = Some p ->
  (stg p = Away -> exists y q, outside x y /\ peers y !! i = Some q /\ stg q = Queued /\ lnk q = lnk p) /\
  (stg p <> Away -> ended (lnk p) = None -> shut (lnk p) = false ->
    (forall piece, exists y q, outside x y /\ peers y !! i = Some q /\ given (lnk q) = given (lnk p) ++ [piece] /\ ended (lnk q) = None) /\
    (forall e, exists y q, outside x y /\ peers y !! i = Some q /\ given (lnk q) = given (lnk p) /\ ended (lnk q) = Some e)) /\
  exists y, outside x y /\ signal y = true /\ peers y = peers x.
Proof.
  intros R Hrun Hi. destruct (net_reached _ _ _ _ _ R) as [A _]. pose proof (pv_live _ (A _ _ Hi)) as Hd. clear A R. destruct x as [xs xc xp xg xf], p as [st [g u f s pp h lg d] o w]. cbn in *. subst xf d.
  assert (HL : forall q, <[i := q]> xp !! i = Some q) by (intros q; apply list_lookup_insert; eapply lookup_lt_Some; eauto). split; [|split].
  - intros ->. eexists _, _. split; [eapply O_connect; eauto|]. cbn. rewrite HL. auto.
  - intros Hs -> ->. split; intros e; eexists _, _.
    + split; [eapply O_client; [exact Hi|exact Hs|exact (K_send g u None pp h lg e eq_refl)]|]. cbn. rewrite HL. auto.
    + split; [eapply O_client; [exact Hi|exact Hs|exact (K_end g u pp h lg e)]|]. cbn. rewrite HL. auto.
  - eexists. split; [apply O_signal|]. auto.
Qed.
End WithParams.
