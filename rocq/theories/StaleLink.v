(** A client's command gets to its handler. *)
From Verif Require Export GramWorld.

(** Neither a command is executed nor does anything panic. *)
Definition lquiet (x y : link) : Prop := Pipe.lstep x y /\ log y = log x /\ dead y = false.
Lemma fed_goes x cmd : rtc goes opened x -> sends [cmd] (concat (given x)) -> ended x = None -> log x = [] -> dead x = false ->
  match hnd x with HIdle => exists y, lquiet x y | HExec c => c = cmd | _ => False end.
Proof.
  intros R Hs He Hl Hd. pose proof (J_goes x R) as (passed & Hh & Hdat & Hp & Hc). specialize (Hc Hd).
  assert (E1 := pipeline_exact [cmd] (given x) Hs). cbn [map app] in E1.
  assert (Hbad : forall e, err_clause x passed e -> False).
  { intros e [Hq Hee]. destruct (Hq [] (or_intror eq_refl)) as (e' & tl & E & Ee). rewrite app_nil_r, E1 in E. cbn [fst] in E. rewrite (Ee ltac:(rewrite He; discriminate)) in E.
    destruct passed as [|ev passed]; [discriminate E|]. injection E as <- E. destruct passed as [|ev' passed]; [|injection E as <- E; apply Forall_cons_1 in Hdat as [_ Hdat]; apply Forall_cons_1 in Hdat as [[] _]].
    injection E as <- _. specialize (Hee eq_refl). congruence. }
  destruct (hnd x) as [|c|e|e] eqn:Eh.
  - unfold clause in Hc. rewrite Eh in Hc. destruct Hc as [Hsh Hc]. destruct x as [g u f s p h l d]. cbn in *. subst h f s l d. destruct p as [b|evs nx|].
    + destruct (read_next (mkLink g u None false (PRead b) HIdle [] false) b) as [[evs b' rest|evs|]|] eqn:En.
      * eexists. split; [apply L_read; exact En|auto].
      * eexists. split; [apply L_eof; exact En|auto].
      * exfalso. pose proof (parser_panics _ _ R eq_refl En) as H. cbn in H. rewrite E1 in H. discriminate H.
      * exfalso. assert (Hr : rests (mkLink g u None false (PRead b) HIdle [] false)).
        { split; [auto|]. intros y Hy. inversion Hy; subst; congruence. }
        destruct (pipe_prompt _ _ R Hs Hr) as [H _]. discriminate H.
    + destruct evs as [|ev [|? ?]]; try (destruct nx; destruct Hc; fail); [|destruct ev; destruct Hc].
      destruct ev as [dd|e]; [|destruct (Hbad _ Hc)]. destruct nx as [b|]; [|destruct Hc]. destruct Hc as [_ Hq]. specialize (Hq [] (or_intror eq_refl)). cbn in Hq. rewrite app_nil_r, E1 in Hq. cbn [fst] in Hq.
      assert (Hr : receive (EvData dd) = Some (HExec cmd)).
      { destruct passed as [|ev passed].
        - assert (E : EvData dd = cmd_event cmd) by (cbn [app] in Hq; congruence). rewrite E. cbn. rewrite cmd_event_command. reflexivity.
        - exfalso. injection Hq as <- Hq. destruct passed as [|ev' passed]; [discriminate Hq|]. injection Hq as <- Hq. apply Forall_cons_1 in Hdat as [_ Hdat]; apply Forall_cons_1 in Hdat as [[] _]. }
      eexists. split; [apply L_pass; exact Hr|auto].
    + destruct Hc.
  - destruct (pipe_order [cmd] [] x R ltac:(rewrite app_nil_r; exact Hs)) as [rest E]. unfold handed in E. rewrite Hl, Eh in E. cbn in E. congruence.
  - unfold clause in Hc. rewrite Eh in Hc. destruct Hc as [_ Hc]. eauto.
  - unfold clause in Hc. rewrite Eh in Hc. eauto.
Qed.

(** After the command has been executed the connection is at rest as soon as the parser has read all. *)
Lemma fed_rests x cmd : rtc goes opened x -> sends [cmd] (concat (given x)) -> ended x = None -> map fst (log x) = [cmd] -> dead x = false -> hnd x = HIdle ->
  (forall b, par x = PRead b -> read_next x b = None) -> rests x.
Proof.
  intros R Hs He Hl Hd Eh Hn. pose proof (J_goes x R) as (passed & Hh & Hdat & Hp & Hc). specialize (Hc Hd).
  assert (E1 := pipeline_exact [cmd] (given x) Hs). cbn [map app] in E1.
  unfold clause in Hc. rewrite Eh in Hc. destruct Hc as [Hsh Hc]. unfold handed in Hh. rewrite Hl, Eh in Hh. cbn in Hh.
  assert (Hone : passed <> []) by (intros ->; discriminate Hh).
  assert (Hsome : forall ev tl, [cmd_event cmd; EvErr EEof] = passed ++ ev :: tl -> ev = EvErr EEof).
  { intros ev tl E. destruct passed as [|ev0 passed]; [destruct Hone; auto|]. injection E as <- E. destruct passed as [|ev' passed]; [injection E; auto|]. injection E as <- E. apply Forall_cons_1 in Hdat as [_ Hdat]; apply Forall_cons_1 in Hdat as [[] _]. }
  assert (Hbad : forall e, err_clause x passed e -> False).
  { intros e [Hq Hee]. destruct (Hq [] (or_intror eq_refl)) as (e' & tl & E & Ee). rewrite app_nil_r, E1 in E. cbn [fst] in E. pose proof (Hsome _ _ E) as H. injection H as ->.
    specialize (Hee (eq_sym (Ee ltac:(rewrite He; discriminate)))). congruence. }
  destruct x as [g u f s p h l d]. cbn in *. subst h f s d. split; [auto|]. destruct p as [b|evs nx|].
  - intros y Hy. inversion Hy; subst; rewrite (Hn b eq_refl) in *; discriminate.
  - destruct evs as [|ev [|? ?]]; try (destruct nx; destruct Hc; fail); [|destruct ev; destruct Hc].
    destruct ev as [dd|e]; [|destruct (Hbad _ Hc)]. destruct nx as [b|]; [|destruct Hc]. destruct Hc as [_ Hq]. specialize (Hq [] (or_intror eq_refl)). cbn in Hq. rewrite app_nil_r, E1 in Hq. cbn [fst] in Hq.
    rewrite <- app_assoc in Hq. discriminate (Hsome _ _ Hq).
  - destruct Hc.
Qed.
(** The handler has the command and the parser waits for more. *)
Definition fed (cmd : command) (x : link) : Prop :=
  rtc goes opened x /\ sends [cmd] (concat (given x)) /\ ended x = None /\ log x = [] /\ dead x = false /\ hnd x = HExec cmd /\ (forall b, par x = PRead b -> read_next x b = None).
Lemma quiet_goes x y : lquiet x y -> rtc goes opened x -> ended x = None -> log x = [] -> rtc goes opened y /\ given y = given x /\ ended y = None /\ log y = [].
Proof. intros (St & E & _) R He Hl. split; [eapply rtc_r; [exact R|right; exact St]|]. split; [|split; [|congruence]]; inversion St; subst; cbn in *; congruence. Qed.
Lemma gets_fed cmd : forall k x, (weight x < k)%nat -> rtc goes opened x -> sends [cmd] (concat (given x)) -> ended x = None -> log x = [] -> dead x = false -> exists y, rtc lquiet x y /\ fed cmd y.
Proof.
  induction k as [|k IH]; intros x Hk R Hs He Hl Hd; [lia|].
  assert (Go : forall y, lquiet x y -> exists y, rtc lquiet x y /\ fed cmd y).
  { intros y Hq. destruct (quiet_goes x y Hq R He Hl) as (H1 & H2 & H3 & H4). destruct (IH y) as (z & Rz & Fz); auto; [|rewrite H2; auto|apply Hq|exists z; split; [eapply rtc_l; eauto|auto]].
    pose proof (step_weight x y (buf_reached x R) (proj1 Hq)). lia. }
  pose proof (fed_goes x cmd R Hs He Hl Hd) as F. destruct (hnd x) as [|c|e|e] eqn:Eh; try (destruct F; fail).
  - destruct F as [y Hy]. eauto.
  - subst c. assert (D : (exists y, lquiet x y) \/ forall b, par x = PRead b -> read_next x b = None).
    { destruct x as [g u f s p h l d]. cbn in *. subst h f l d. destruct p as [b| |]; try (right; intros; discriminate).
      destruct (read_next (mkLink g u None s (PRead b) (HExec cmd) [] false) b) as [[evs b' rest|evs|]|] eqn:En.
      - left. eexists. split; [apply L_read; exact En|auto].
      - left. eexists. split; [apply L_eof; exact En|auto].
      - exfalso. pose proof (parser_panics _ _ R eq_refl En) as H. cbn [given] in H. rewrite (pipeline_exact [cmd] g Hs) in H. discriminate H.
      - right. intros b0 [= <-]. exact En. }
    destruct D as [[y Hy]|D]; [eauto|]. exists x. split; [apply rtc_refl|]. repeat split; auto.
Qed.
(** From the opening of the connection. *)
Lemma opened_fed cmd s : sends [cmd] s -> exists y, rtc lquiet (mkLink [s] [s] None false (PRead empty_buf) HIdle [] false) y /\ fed cmd y.
Proof.
  intros Hs. eapply (gets_fed cmd _ _ (Nat.lt_succ_diag_r _)); auto; [|cbn; rewrite app_nil_r; exact Hs]. eapply rtc_once. left. apply (K_send [] [] None _ _ _ s). reflexivity.
Qed.
Lemma fed_done cmd x r : cmd <> [] -> fed cmd x -> rests (mkLink (given x) (unread x) (ended x) (shut x) (par x) HIdle (log x ++ [(cmd, r)]) false).
Proof.
  intros Hc (R & Hs & He & Hl & Hd & Hh & Hn). apply (fed_rests _ cmd); cbn; auto; [|rewrite Hl; auto].
  eapply rtc_r; [exact R|right]. destruct x; cbn in *; subst. constructor. auto.
Qed.
