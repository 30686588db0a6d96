(** Checking by computation that only those who may stand still can do anything, for the concrete executions of C88. *)
From Verif Require Export MuteProofs StallSched.

Section WithParams.
Context {P : Setup}.
Definition thread_still {A} (c : conf A) (t : thread A) : bool :=
  match tcode t with
  | Ret _ | Crash | Hang => true
  | Acq p MR _ => wr (lk c p) || pend (lk c p)
  | Acq p MW _ => if ann t then negb (rd (lk c p) =? 0)%nat else wr (lk c p) || pend (lk c p)
  | _ => false end.
Lemma thread_moves {A} T (c c' : conf A) i t : cstep T c c' -> ths c !! i = Some t -> ths c' !! i <> ths c !! i -> thread_still c t = false.
Proof.
  intros St Ht Hne. destruct St as [d L ts k p d' p' Hi Hp|d L ts k pos k0 n Hi HL|d L ts k pos k0 n Hi HL|d L ts k pos k0 Hi HL|d L ts k pos k0 n b Hi HL|d L ts k pos k0 n b Hi HL]; cbn [ths] in *;
    (destruct (decide (k = i)) as [->|N]; [|rewrite list_lookup_insert_ne in Hne by auto; congruence]); rewrite Hi in Ht; injection Ht as <-; unfold thread_still; cbn; rewrite ?HL; auto.
  destruct Hp; auto. exfalso. apply Hne. rewrite list_lookup_insert by (eapply lookup_lt_Some; eauto). congruence.
Qed.
Definition peer_but (bp : nat -> bool) (x : world) (i : nat) (p : peer) : bool := match stg p with Queued | Held => bp i | _ => peer_still x i p end.
Definition thread_but (be : nat -> bool) (c : conf rdata) (i : nat) (t : thread rdata) : bool := match tcode t with Crash => false | _ => be i || thread_still c t end.
Definition but_f (bp be : nat -> bool) (x : world) : bool :=
  forallb id (imap (peer_but bp x) (peers x)) && forallb (fun c => forallb id (imap (thread_but be c) (ths c))) (wcores x).
Lemma imap_true {X} (f : nat -> X -> bool) l i x : forallb id (imap f l) = true -> l !! i = Some x -> f i x = true.
Proof. intros H Hi. rewrite forallb_forall in H. apply (H (f i x)). apply elem_of_list_In. apply (elem_of_list_lookup_2 _ i). rewrite list_lookup_imap, Hi. reflexivity. Qed.
Lemma but_ok (XP XE : nat -> Prop) bp be T x : but_f bp be x = true -> (forall i, bp i = true -> XP i) -> (forall i, be i = true -> XE i) -> rests_but XP XE T x.
Proof.
  intros [Hp Hc]%andb_prop HX HE y St. rewrite forallb_forall in Hc.
  assert (HP : forall i p, peers x !! i = Some p -> peer_but bp x i p = true) by (intros i p; apply imap_true; auto).
  assert (HQ : forall j c i t, wcores x !! j = Some c -> ths c !! i = Some t -> thread_but be c i t = true).
  { intros j c i t Hj. apply imap_true. apply Hc. apply elem_of_list_In. eapply elem_of_list_lookup_2; eauto. }
  assert (HR : forall l, rests_f l = true -> (forall l', ~ Pipe.lstep l l') /\ forall cmd, hnd l <> HExec cmd).
  { intros l H. split; [apply (rests_ok l H)|]. intros cmd E. unfold rests_f in H. rewrite E, andb_false_r in H. discriminate. }
  assert (HB : forall cs : list (conf rdata), wcores y = cs -> wcores x = cs -> forall j c c' i, wcores x !! j = Some c -> wcores y !! j = Some c' -> ths c' !! i <> ths c !! i -> XE i).
  { intros cs E1 E2 j c c' i Hj Hj' Hne. rewrite E1 in Hj'. rewrite E2 in Hj. congruence. }
  assert (HI : forall i p p', peers y = <[i := p']> (peers x) -> peers x !! i = Some p -> bp i = true -> forall i0, peers y !! i0 <> peers x !! i0 -> XP i0).
  { intros i p p' E Hi Hb i0 Hne. rewrite E in Hne. destruct (decide (i = i0)) as [->|N]; auto. rewrite list_lookup_insert_ne in Hne by auto. congruence. }
  destruct St; cbn [peers wcores signal now_is] in *; try (pose proof (HP _ _ H) as E; unfold peer_but, peer_still in E; cbn [stg runs_on lnk] in E; try discriminate E).
  - split; [discriminate|]. split; [eapply HI; eauto|]. intros _. eapply HB; eauto.
  - split; [discriminate|]. split; [eapply HI; eauto|]. intros _. eapply HB; eauto.
  - split; [discriminate|]. split; [congruence|]. intros _. eapply HB; eauto.
  - exfalso. destruct o as [j|]; [|destruct (HR _ E) as [H3 _]; exact (H3 _ H0)]. destruct (hnd l) eqn:Eh; try discriminate. apply andb_prop in E as [E _].
    destruct l as [g u f s pp h lg d]. cbn in Eh. subst h. unfold reader_waits in E. cbn [par] in E.
    inversion H0; subst; cbn in *; try (destruct (read_next _ b) eqn:Er; congruence); try congruence; try (match goal with Hl : ?a ++ _ = ?a |- _ => apply (f_equal length) in Hl; rewrite app_length in Hl; cbn in Hl; lia end).
  - exfalso. destruct l as [g u f s pp h lg d]. cbn in *. subst pp. destruct o as [j|]; [destruct h; try discriminate; apply andb_prop in E as [E _]; unfold reader_waits in E|unfold rests_f in E; apply andb_prop in E as [_ E]]; cbn [par] in E; rewrite H1 in E; discriminate.
  - exfalso. destruct l as [g u f s pp h lg d]. cbn in *. subst pp h. destruct o as [j|]; [discriminate|]. unfold rests_f in E. cbn [par dead hnd] in E. rewrite andb_false_r in E. discriminate.
  - destruct (HR _ E) as [_ HX']; destruct (HX' _ H0).
  - destruct (HR _ E) as [_ HX']; destruct (HX' _ H0).
  - destruct (HR _ E) as [_ HX']; destruct (HX' _ H0).
  - split; [discriminate|]. split; [congruence|]. intros _ j0 c0 c0' i Hj Hj' Hne. destruct (decide (j = j0)) as [->|N]; [|rewrite list_lookup_insert_ne in Hj' by auto; congruence].
    rewrite list_lookup_insert in Hj' by (eapply lookup_lt_Some; eauto). injection Hj' as <-. assert (c0 = c) as -> by congruence.
    destruct (ths c !! i) as [t|] eqn:Ht.
    + rewrite <- Ht in Hne. pose proof (thread_moves _ _ _ _ _ H0 Ht Hne) as E. pose proof (HQ _ _ _ _ H Ht) as E'. unfold thread_but in E'. rewrite E, orb_false_r in E'. apply HE. destruct (tcode t); auto; discriminate.
    + exfalso. apply Hne. apply lookup_ge_None_2. rewrite (steps_length T c c' (rtc_once _ _ H0)). apply lookup_ge_None. exact Ht.
  - exfalso. rewrite H0 in E. apply andb_prop in E as [_ E]. unfold unreturned in E. cbn [wcores] in E. rewrite H1, H2 in E. discriminate.
  - exfalso. rewrite H0 in E. apply andb_prop in E as [_ E]. unfold unreturned in E. cbn [wcores] in E. rewrite H1, H2 in E. discriminate.
  - exfalso. pose proof (HQ _ _ _ _ H H0) as E. discriminate E.
Qed.
End WithParams.
