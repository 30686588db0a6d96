(** Proofs about the log. *)
From Verif Require Export SpecLog.

Section Log.
Context (conf : Z) (old : bytes) (css : list (list lcall)).
Definition leveled (cs : list lcall) : Prop := Forall (fun c => 0 <= level c <= 4) cs.
Context (Hlev : Forall leveled css).

(** What a goroutine has still to write (without the call it is just printing or has printed). *)
Definition pending (g : lgo) : list lcall := match at_ g with LWait c | LPrefix c | LPrint c => c :: kept conf (todo g) | _ => kept conf (todo g) end.
Definition inside (g : lgo) : bool := match at_ g with LPrefix _ | LPrint _ | LUnlock => true | _ => false end.
Record linv (s : logger) (order : list (nat * lcall)) (ls : list bytes) : Prop := mkLinv {
  li_lines : Forall2 (fun x l => line_for x.2 l) order ls;
  li_file : lfile s = mkFile (concat ls ++ drop (length (concat ls)) old) (length (concat ls));
  li_len : length (gos s) = length css;
  li_mine : forall i g cs, gos s !! i = Some g -> css !! i = Some cs -> kept conf cs = mine i order ++ pending g;
  li_lev : forall i g, gos s !! i = Some g -> leveled (pending g);
  li_mu : forall i g, gos s !! i = Some g -> inside g = true <-> mu s = Some i;
  li_pre : forall i c r, gos s !! i = Some (mkGo (LPrint c) r) -> lprefix s = prefix_of c;
  li_holder : forall i, mu s = Some i -> (i < length (gos s))%nat }.

Lemma kept_cons c cs : kept conf (c :: cs) = if decide (conf <= level c) then c :: kept conf cs else kept conf cs.
Proof. unfold kept. rewrite filter_cons. reflexivity. Qed.
Lemma writes_iff c : writes (level c) conf = true <-> conf <= level c.
Proof. unfold writes. rewrite negb_true_iff, Z.ltb_ge. reflexivity. Qed.
Lemma leveled_kept cs : leveled cs -> leveled (kept conf cs).
Proof. unfold leveled, kept. intros H. rewrite !stdpp.list.Forall_forall in *. intros c Hc. apply elem_of_list_filter in Hc as [_ Hc]. auto. Qed.
Lemma mine_snoc i j c order : mine i (order ++ [(j, c)]) = if decide (j = i) then mine i order ++ [c] else mine i order.
Proof.
  unfold mine. rewrite stdpp.list.filter_app, map_app, filter_cons. cbn [fst]. destruct (decide (j = i)); rewrite filter_nil; [reflexivity|]. cbn [map]. apply app_nil_r.
Qed.
Lemma write_more ls l : write_at (mkFile (concat ls ++ drop (length (concat ls)) old) (length (concat ls))) l =
  mkFile (concat (ls ++ [l]) ++ drop (length (concat (ls ++ [l]))) old) (length (concat (ls ++ [l]))).
Proof.
  unfold write_at. cbn [offset content]. rewrite concat_app. cbn [concat]. rewrite app_nil_r, app_length. f_equal.
  rewrite take_app, <- app_assoc. f_equal. f_equal. rewrite drop_app_ge by lia. rewrite drop_drop. f_equal. lia.
Qed.
Lemma prefix_line c stamp : 0 <= level c <= 4 -> line_for c (prefix_of c ++ stamp ++ text c ++ [LF]).
Proof.
  intros H. assert (E : exists name, severities !! Z.to_nat (level c) = Some name /\ nth (Z.to_nat (level c)) level_table [] = name).
  { change level_table with severities. destruct (lookup_lt_is_Some_2 severities (Z.to_nat (level c))) as [n En]; [cbn; lia|]. exists n. split; [exact En|]. apply nth_lookup_Some. exact En. }
  destruct E as (name & E1 & E2). exists name, stamp. split; [exact E1|]. unfold prefix_of. rewrite E2, <- !app_assoc. reflexivity.
Qed.

Lemma linv_start : linv (log_start old css) [] [].
Proof.
  constructor; cbn.
  - constructor.
  - reflexivity.
  - apply map_length.
  - intros i g cs Hg Hc. rewrite list_lookup_fmap, Hc in Hg. injection Hg as <-. reflexivity.
  - intros i g Hg. rewrite list_lookup_fmap in Hg. destruct (css !! i) as [cs|] eqn:E; [|discriminate]. injection Hg as <-. cbn. apply leveled_kept. eapply Forall_lookup_1; eauto.
  - intros i g Hg. rewrite list_lookup_fmap in Hg. destruct (css !! i) as [cs|] eqn:E; [|discriminate]. injection Hg as <-. cbn. split; discriminate.
  - intros i c r Hg. rewrite list_lookup_fmap in Hg. destruct (css !! i) as [cs|] eqn:E; discriminate.
  - discriminate.
Qed.

(** A change of goroutine [i] only. *)
Lemma linv_change s order ls i g g' m p : linv s order ls -> gos s !! i = Some g -> pending g' = pending g ->
  (inside g' = true <-> m = Some i) -> (forall j gj, j <> i -> gos s !! j = Some gj -> (mu s = Some j <-> m = Some j)) ->
  (forall c r, g' = mkGo (LPrint c) r -> p = prefix_of c) -> (forall j c r, j <> i -> gos s !! j = Some (mkGo (LPrint c) r) -> p = prefix_of c) ->
  (forall j, m = Some j -> (j < length (gos s))%nat) -> linv (mkLog m p (lfile s) (<[i := g']> (gos s))) order ls.
Proof.
  intros [H1 H2 H3 H4 H5 H6 H7 H8] Hg Ep Hin Hmu Hp Hp' Hm. pose proof (lookup_lt_Some _ _ _ Hg) as Hlt. constructor; cbn [lfile gos mu lprefix].
  - exact H1.
  - exact H2.
  - rewrite insert_length. exact H3.
  - intros j gj cs Hj Hc. destruct (decide (j = i)) as [->|Hji]; [rewrite list_lookup_insert in Hj by auto; injection Hj as <-; rewrite Ep; eapply H4; eauto|rewrite list_lookup_insert_ne in Hj by auto; eapply H4; eauto].
  - intros j gj Hj. destruct (decide (j = i)) as [->|Hji]; [rewrite list_lookup_insert in Hj by auto; injection Hj as <-; rewrite Ep; eapply H5; eauto|rewrite list_lookup_insert_ne in Hj by auto; eapply H5; eauto].
  - intros j gj Hj. destruct (decide (j = i)) as [->|Hji]; [rewrite list_lookup_insert in Hj by auto; injection Hj as <-; exact Hin|rewrite list_lookup_insert_ne in Hj by auto].
    rewrite (H6 j gj Hj). eapply Hmu; eauto.
  - intros j c r Hj. destruct (decide (j = i)) as [->|Hji]; [rewrite list_lookup_insert in Hj by auto; injection Hj as ->; eapply Hp; eauto|rewrite list_lookup_insert_ne in Hj by auto; eapply Hp'; eauto].
  - intros j Hj. rewrite insert_length. auto.
Qed.
Lemma linv_step s s' order ls : linv s order ls -> logstep conf s s' -> exists order' ls', linv s' order' ls'.
Proof.
  intros Hi St. pose proof Hi as [H1 H2 H3 H4 H5 H6 H7 H8].
  inversion St as [m p f gs i c r Hg Hw|m p f gs i c r Hg Hw|p f gs i c r Hg|m p f gs i c r Hg|m p f gs i c r stamp Hg|m p f gs i r Hg]; subst; cbn [lfile gos mu lprefix] in *.
  - exists order, ls. apply (linv_change _ _ _ i _ _ m p Hi Hg); cbn [gos mu lprefix inside at_ todo].
    + unfold pending. cbn [at_ todo]. rewrite kept_cons. apply not_true_iff_false in Hw. rewrite writes_iff in Hw. rewrite decide_False by auto. reflexivity.
    + exact (H6 _ _ Hg).
    + reflexivity.
    + discriminate.
    + intros. eapply H7; eauto.
    + first [exact H8|discriminate|intros j [= <-]; eapply lookup_lt_Some; eauto].
  - exists order, ls. apply (linv_change _ _ _ i _ _ m p Hi Hg); cbn [gos mu lprefix inside at_ todo].
    + unfold pending. cbn [at_ todo]. rewrite kept_cons. rewrite writes_iff in Hw. rewrite decide_True by auto. reflexivity.
    + exact (H6 _ _ Hg).
    + reflexivity.
    + discriminate.
    + intros. eapply H7; eauto.
    + first [exact H8|discriminate|intros j [= <-]; eapply lookup_lt_Some; eauto].
  - exists order, ls. apply (linv_change _ _ _ i _ _ (Some i) p Hi Hg); cbn [gos mu lprefix inside at_ todo].
    + reflexivity.
    + tauto.
    + intros j gj Hji Hj. split; congruence.
    + discriminate.
    + intros. eapply H7; eauto.
    + first [exact H8|discriminate|intros j [= <-]; eapply lookup_lt_Some; eauto].
  - exists order, ls. assert (Em : m = Some i) by (apply (H6 _ _ Hg); reflexivity). apply (linv_change _ _ _ i _ _ m _ Hi Hg); cbn [gos mu lprefix inside at_ todo].
    + reflexivity.
    + tauto.
    + reflexivity.
    + intros c' r' [= -> ->]. reflexivity.
    + intros j c' r' Hji Hj. exfalso. assert (m = Some j) by (apply (H6 _ _ Hj); reflexivity). congruence.
    + exact H8.
  - assert (Em : m = Some i) by (apply (H6 _ _ Hg); reflexivity). pose proof (H7 _ _ _ Hg) as Epre. pose proof (lookup_lt_Some _ _ _ Hg) as Hlt.
    assert (Hc : 0 <= level c <= 4). { pose proof (H5 _ _ Hg) as H. apply Forall_inv in H. exact H. }
    exists (order ++ [(i, c)]), (ls ++ [p ++ stamp ++ text c ++ [LF]]). constructor; cbn [lfile gos mu lprefix].
    + apply Forall2_app; [exact H1|]. constructor; [|constructor]. cbn. rewrite Epre. apply prefix_line. exact Hc.
    + rewrite H2. apply write_more.
    + rewrite insert_length. exact H3.
    + intros j gj cs Hj Hcs. rewrite mine_snoc. destruct (decide (j = i)) as [->|Hji].
      * rewrite list_lookup_insert in Hj by auto. injection Hj as <-. rewrite decide_True by auto. rewrite (H4 _ _ _ Hg Hcs). unfold pending. cbn [at_ todo]. rewrite <- app_assoc. reflexivity.
      * rewrite list_lookup_insert_ne in Hj by auto. rewrite decide_False by auto. eapply H4; eauto.
    + intros j gj Hj. destruct (decide (j = i)) as [->|Hji]; [|rewrite list_lookup_insert_ne in Hj by auto; eapply H5; eauto].
      rewrite list_lookup_insert in Hj by auto. injection Hj as <-. pose proof (H5 _ _ Hg) as H. apply Forall_inv_tail in H. exact H.
    + intros j gj Hj. destruct (decide (j = i)) as [->|Hji]; [|rewrite list_lookup_insert_ne in Hj by auto; eapply H6; eauto].
      rewrite list_lookup_insert in Hj by auto. injection Hj as <-. cbn. tauto.
    + intros j c' r' Hj. destruct (decide (j = i)) as [->|Hji]; [|rewrite list_lookup_insert_ne in Hj by auto; eapply H7; eauto].
      rewrite list_lookup_insert in Hj by auto. discriminate.
    + intros j Hj. rewrite insert_length. auto.
  - exists order, ls. assert (Em : m = Some i) by (apply (H6 _ _ Hg); reflexivity). apply (linv_change _ _ _ i _ _ None p Hi Hg); cbn [gos mu lprefix inside at_ todo].
    + reflexivity.
    + split; discriminate.
    + intros j gj Hji Hj. split; congruence.
    + discriminate.
    + intros. eapply H7; eauto.
    + first [exact H8|discriminate|intros j [= <-]; eapply lookup_lt_Some; eauto].
Qed.
Lemma linv_reach s : rtc (logstep conf) (log_start old css) s -> exists order ls, linv s order ls.
Proof.
  intros H. assert (G : forall s0, rtc (logstep conf) s0 s -> (exists order ls, linv s0 order ls) -> exists order ls, linv s order ls).
  { induction 1 as [x|x y z Hxy _ IH]; [auto|]. intros (order & ls & Hi). apply IH; auto. eapply linv_step; eauto. }
  apply (G _ H). exists [], []. apply linv_start.
Qed.
(** The file at every moment. *)
Theorem log_lines s : rtc (logstep conf) (log_start old css) s -> exists order ls,
  content (lfile s) = concat ls ++ drop (length (concat ls)) old /\ Forall2 (fun x l => line_for x.2 l) order ls /\
  forall i cs, css !! i = Some cs -> exists rest, kept conf cs = mine i order ++ rest.
Proof.
  intros (order & ls & [H1 H2 H3 H4 H5 H6 H7 H8])%linv_reach. exists order, ls. split; [rewrite H2; reflexivity|]. split; [exact H1|].
  intros i cs Hc. destruct (lookup_lt_is_Some_2 (gos s) i) as [g Hg]; [rewrite H3; eapply lookup_lt_Some; eauto|]. eauto.
Qed.
(** When nothing can be done any more, everything is written. *)
Lemma stuck_done s order ls : linv s order ls -> (forall s', ~ logstep conf s s') -> Forall (fun g => g = mkGo LNext []) (gos s).
Proof.
  intros Hi Hs. pose proof Hi as [H1 H2 H3 H4 H5 H6 H7 H8]. destruct s as [m p f gs]. cbn in *.
  assert (Hin : forall i g, gs !! i = Some g -> inside g = false).
  { intros i g Hg. destruct g as [[|c|c|c|] r]; try reflexivity; exfalso.
    - eapply Hs. eapply L_prefix; eauto.
    - eapply Hs. eapply (L_print _ _ _ _ _ _ _ _ []); eauto.
    - eapply Hs. eapply L_unlock; eauto. }
  apply Forall_lookup_2. intros i [a r] Hg. pose proof (Hin _ _ Hg) as Hf. destruct a as [|c|c|c|]; try discriminate.
  - destruct r as [|c r]; [reflexivity|]. exfalso. destruct (writes (level c) conf) eqn:E; eapply Hs; [eapply L_call|eapply L_skip]; eauto.
  - exfalso. destruct m as [j|]; [|eapply Hs; eapply L_lock; eauto]. destruct (gs !! j) as [gj|] eqn:Ej.
    + pose proof (proj2 (H6 _ _ Ej) eq_refl) as Hj. rewrite (Hin _ _ Ej) in Hj. discriminate.
    + apply lookup_ge_None in Ej. specialize (H8 j eq_refl). lia.
Qed.
Theorem log_done s : rtc (logstep conf) (log_start old css) s -> (forall s', ~ logstep conf s s') -> exists order ls,
  content (lfile s) = concat ls ++ drop (length (concat ls)) old /\ Forall2 (fun x l => line_for x.2 l) order ls /\
  forall i cs, css !! i = Some cs -> mine i order = kept conf cs.
Proof.
  intros (order & ls & Hi)%linv_reach Hs. pose proof (stuck_done _ _ _ Hi Hs) as Hd. destruct Hi as [H1 H2 H3 H4 H5 H6 H7 H8].
  exists order, ls. split; [rewrite H2; reflexivity|]. split; [exact H1|].
  intros i cs Hc. destruct (lookup_lt_is_Some_2 (gos s) i) as [g Hg]; [rewrite H3; eapply lookup_lt_Some; eauto|].
  rewrite (H4 _ _ _ Hg Hc). rewrite (Forall_lookup_1 _ _ _ _ Hd Hg). cbn. rewrite app_nil_r. reflexivity.
Qed.
(** It cannot go on for ever. *)
Definition togo (g : lgo) : nat := 5 * length (todo g) + match at_ g with LNext => 0 | LWait _ => 4 | LPrefix _ => 3 | LPrint _ => 2 | LUnlock => 1 end.
Definition all_togo (s : logger) : nat := list_sum (map togo (gos s)).
Lemma togo_insert gs i g g' : gs !! i = Some g -> (togo g' < togo g)%nat -> (list_sum (map togo (<[i := g']> gs)) < list_sum (map togo gs))%nat.
Proof.
  revert i. induction gs as [|x gs IH]; intros [|i] Hg Hlt; try discriminate; cbn [lookup list_lookup] in Hg.
  - injection Hg as ->. change (togo g' + list_sum (map togo gs) < togo g + list_sum (map togo gs))%nat. lia.
  - specialize (IH _ Hg Hlt). change (togo x + list_sum (map togo (<[i:=g']> gs)) < togo x + list_sum (map togo gs))%nat. lia.
Qed.
Lemma log_step_less s s' : logstep conf s s' -> (all_togo s' < all_togo s)%nat.
Proof. intros []; unfold all_togo; cbn [gos]; (eapply togo_insert; [eassumption|]); unfold togo; cbn; lia. Qed.
Theorem log_ends (f : nat -> logger) : ~ forall n, logstep conf (f n) (f (S n)).
Proof.
  intros H. assert (G : forall n, (all_togo (f n) + n <= all_togo (f 0%nat))%nat). { induction n as [|n IH]; [lia|]. pose proof (log_step_less _ _ (H n)). lia. }
  specialize (G (S (all_togo (f 0%nat)))). lia.
Qed.
End Log.
