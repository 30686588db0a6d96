(** Checking by computation that the process is at rest although commands wait, for the concrete executions of C84. *)
From Verif Require Export StallProofs HoldupSched WorldSched.

Section WithParams.
Context {P : Setup}.
Definition unreturned (x : world) (j i : nat) : bool :=
  match wcores x !! j with Some c => match ths c !! i with Some (mkT (Ret _) _) => false | Some _ => true | None => false end | None => false end.
Definition reader_waits (l : link) : bool := match par l with PRead b => match read_next l b with None => true | _ => false end | _ => true end.
Definition peer_still (x : world) (i : nat) (p : peer) : bool :=
  match stg p with
  | Away => true
  | Served => match runs_on p, hnd (lnk p) with
    | None, _ => rests_f (lnk p)
    | Some j, HExec _ => reader_waits (lnk p) && unreturned x j i
    | _, _ => false end
  | _ => false end.
Definition wstill (x : world) : bool :=
  negb (signal x) && forallb id (imap (peer_still x) (peers x)) &&
  forallb (fun c => still c && forallb (fun t => match tcode t with Crash => false | _ => true end) (ths c)) (wcores x).
Lemma wstill_ok T x y : wstill x = true -> ~ wadvance T x y.
Proof.
  intros [[Hg Hp]%andb_prop Hc]%andb_prop. rewrite forallb_forall in Hp. rewrite forallb_forall in Hc. intros [St Hne].
  assert (HP : forall i p, peers x !! i = Some p -> peer_still x i p = true).
  { intros i p Hi. apply (Hp (peer_still x i p)). apply elem_of_list_In. apply (elem_of_list_lookup_2 _ i). rewrite list_lookup_imap, Hi. reflexivity. }
  assert (HQ : forall j c, wcores x !! j = Some c -> still c = true /\ forall i t, ths c !! i = Some t -> tcode t <> Crash).
  { intros j c Hj. apply elem_of_list_lookup_2, elem_of_list_In, Hc in Hj. apply andb_prop in Hj as [H1 H2]. split; auto. intros i t Ht E. rewrite forallb_forall in H2.
    apply elem_of_list_lookup_2, elem_of_list_In, H2 in Ht. rewrite E in Ht. discriminate. }
  assert (HR : forall l, rests_f l = true -> (forall l', ~ Pipe.lstep l l') /\ forall cmd, hnd l <> HExec cmd).
  { intros l H. split; [apply (rests_ok l H)|]. intros cmd E. unfold rests_f in H. rewrite E, andb_false_r in H. discriminate. }
  destruct St; cbn [peers wcores signal] in *; try (pose proof (HP _ _ H) as E; unfold peer_still in E; cbn [stg runs_on lnk] in E; try discriminate E).
  - discriminate.
  - destruct o as [j|]; [|destruct (HR _ E) as [H3 _]; exact (H3 _ H0)]. destruct (hnd l) eqn:Eh; try discriminate. apply andb_prop in E as [E _].
    destruct l as [g u f s pp h lg d]. cbn in Eh. subst h. unfold reader_waits in E. cbn [par] in E.
    inversion H0; subst; cbn in *; try (destruct (read_next _ b) eqn:Er; congruence); try congruence; try (match goal with Hl : ?a ++ _ = ?a |- _ => apply (f_equal length) in Hl; rewrite app_length in Hl; cbn in Hl; lia end).
  - destruct l as [g u f s pp h lg d]. cbn in *. subst pp. destruct o as [j|]; [destruct h; try discriminate; apply andb_prop in E as [E _]; unfold reader_waits in E|unfold rests_f in E; apply andb_prop in E as [_ E]]; cbn [par] in E; rewrite H1 in E; discriminate.
  - destruct l as [g u f s pp h lg d]. cbn in *. subst pp h. destruct o as [j|]; [discriminate|]. unfold rests_f in E. cbn [par dead hnd] in E. rewrite andb_false_r in E. discriminate.
  - destruct (HR _ E) as [_ HX]; eapply HX; eauto.
  - destruct (HR _ E) as [_ HX]; eapply HX; eauto.
  - destruct (HR _ E) as [_ HX]; eapply HX; eauto.
  - destruct (HQ _ _ H) as [H1 _]. rewrite (still_step _ _ _ H1 H0) in Hne. rewrite list_insert_id in Hne by auto. cbn in Hne. destruct Hne as [?|[?|?]]; auto.
  - rewrite H0 in E. apply andb_prop in E as [_ E]. unfold unreturned in E. cbn [wcores] in E. rewrite H1, H2 in E. discriminate.
  - rewrite H0 in E. apply andb_prop in E as [_ E]. unfold unreturned in E. cbn [wcores] in E. rewrite H1, H2 in E. discriminate.
  - destruct (HQ _ _ H) as [_ H1]. exact (H1 _ _ H0 eq_refl).
Qed.
End WithParams.
