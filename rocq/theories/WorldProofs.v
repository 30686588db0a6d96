(** Proofs about the whole process: it behaves like the connections of Pipe.v on the server of Net.v. *)
From Verif Require Export SpecWorld PipeProofs NetMain.

Section WithParams.
Context {P : Setup}.

(** ** One connection *)
Inductive pmove : peer -> peer -> Prop :=
| PM_same p : pmove p p
| PM_stage st st' l o w : st <> Served -> pmove (mkPeer st l o w) (mkPeer st' l o w)
| PM_client st l l' o w : Pipe.client l l' -> pmove (mkPeer st l o w) (mkPeer st l' o w)
| PM_link l l' o w : Pipe.lstep l l' -> log l' = log l -> dead l' = false -> pmove (mkPeer Served l o w) (mkPeer Served l' o w)
| PM_begin l w cmd j : hnd l = HExec cmd -> cmd <> [] -> pmove (mkPeer Served l None w) (mkPeer Served l (Some j) w)
| PM_answer l o w cmd r bs : hnd l = HExec cmd -> (o = None -> is_select cmd = true) -> reply_bytes r = Some bs ->
    pmove (mkPeer Served l o w) (mkPeer Served (reply_to l cmd r) None (w ++ bs)).
Lemma lookup_ins {X} (l : list X) i x y j z z' : l !! i = Some x -> l !! j = Some z -> <[i := y]> l !! j = Some z' -> (i = j /\ z = x /\ z' = y) \/ (i <> j /\ z' = z).
Proof.
  intros Hi Hj H. destruct (decide (i = j)) as [->|Hn].
  - left. rewrite list_lookup_insert in H by (eapply lookup_lt_Some; eauto). split; auto. split; congruence.
  - right. rewrite list_lookup_insert_ne in H by auto. split; auto. congruence.
Qed.
Lemma happens_pmove T x y : happens T x y -> length (peers y) = length (peers x) /\
  forall i p p', peers x !! i = Some p -> peers y !! i = Some p' -> pmove p p'.
Proof.
  intros H. destruct H as [H|H]; destruct H; cbn [peers]; rewrite ?insert_length; (split; [reflexivity|]); intros i0 p p' Hp Hp';
    try (assert (p' = p) as -> by congruence; constructor; fail);
    (match goal with H : _ !! _ = Some (mkPeer _ _ _ _) |- _ => destruct (lookup_ins _ _ _ _ _ _ _ H Hp Hp') as [(-> & -> & ->)|(_ & ->)] end); try (apply PM_same).
  - apply PM_stage. discriminate.
  - apply PM_client. auto.
  - apply PM_stage. discriminate.
  - apply PM_stage. discriminate.
  - apply PM_link; auto.
  - eapply PM_answer; eauto.
  - eapply PM_begin; eauto.
  - eapply PM_answer; eauto. discriminate.
Qed.
Record pinv (p : peer) : Prop := mkPinv {
  pv_reach : rtc goes opened (lnk p);
  pv_live : dead (lnk p) = false;
  pv_run : forall j, runs_on p = Some j -> exists cmd, hnd (lnk p) = HExec cmd /\ cmd <> [];
  pv_wire : replied (log (lnk p)) (written p);
  pv_stage : stg p = Served \/ (hnd (lnk p) = HIdle /\ runs_on p = None) }.
Lemma log_grows (l : list (command * rdata)) e : l ++ [e] <> l.
Proof. intros E. apply (f_equal length) in E. rewrite app_length in E. cbn in E. lia. Qed.
Lemma reply_lstep l cmd r : hnd l = HExec cmd -> cmd <> [] -> dead l = false -> Pipe.lstep l (reply_to l cmd r).
Proof. destruct l as [g u f s p h lg d]. cbn. intros -> Hc ->. apply L_exec. auto. Qed.
Lemma select_nonempty cmd : is_select cmd = true -> cmd <> [].
Proof. intros H ->. discriminate. Qed.
Lemma pinv_move p p' : pinv p -> pmove p p' -> pinv p'.
Proof.
  intros [H1 H2 H3 H4 H5] M. destruct M; cbn in *.
  - constructor; auto.
  - constructor; auto. right. destruct H5; [contradiction|auto].
  - constructor; cbn; [eapply rtc_r; [exact H1|left; auto]| | | |].
    + inversion H; reflexivity.
    + intros j Hj. destruct (H3 j Hj) as (cmd & Hc & Hne). exists cmd. split; auto. inversion H; subst; auto.
    + inversion H; subst; auto.
    + destruct H5 as [H5|[H5 H6]]; auto. right. split; auto. inversion H; subst; auto.
  - constructor; cbn; [eapply rtc_r; [exact H1|right; auto]|auto| |rewrite H0; auto|auto].
    intros j Hj. destruct (H3 j Hj) as (cmd & Hc & Hne). exists cmd. split; auto. inversion H; subst; cbn in *; auto; try discriminate.
    exfalso. eapply log_grows; eauto.
  - constructor; cbn; auto. intros j' _. eauto.
  - assert (Hc : cmd <> []) by (destruct o as [j|]; [destruct (H3 j eq_refl) as (c & Hc & Hn); congruence|apply select_nonempty; auto]).
    constructor; cbn; [eapply rtc_r; [exact H1|right; apply reply_lstep; auto]|auto|discriminate|constructor; auto|auto].
Qed.
Lemma handed_move p p' : pinv p -> pmove p p' -> exists rest, handed (lnk p') = handed (lnk p) ++ rest.
Proof.
  intros I M. destruct M; cbn; try (exists []; rewrite app_nil_r; reflexivity).
  - exists []. rewrite app_nil_r. inversion H; subst; reflexivity.
  - inversion H; subst; cbn in *; try discriminate; try (exists []; unfold handed; cbn; rewrite ?app_nil_r; reflexivity).
    + unfold handed. cbn. destruct h' as [|c|e|e]; [exists []|exists [c]|exists []|exists []]; rewrite ?app_nil_r; reflexivity.
    + exfalso. eapply log_grows; eauto.
  - exists []. rewrite app_nil_r. unfold handed. cbn. rewrite H, app_nil_r, map_app. reflexivity.
Qed.
Definition all_peers (x : world) : Prop := forall i p, peers x !! i = Some p -> pinv p.
Lemma back T x y i p' : happens T x y -> peers y !! i = Some p' -> exists p, peers x !! i = Some p /\ pmove p p'.
Proof.
  intros H Hi. destruct (happens_pmove _ _ _ H) as [L M]. destruct (lookup_lt_is_Some_2 (peers x) i) as [p Hp]; [rewrite <- L; eapply lookup_lt_Some; eauto|]. eauto.
Qed.
Lemma all_peers_step T x y : all_peers x -> happens T x y -> all_peers y.
Proof. intros A H i p' Hi. destruct (back _ _ _ _ _ H Hi) as (p & Hp & M). eapply pinv_move; eauto. Qed.
Lemma pinv_boot st : pinv (mkPeer st opened None []).
Proof. constructor; cbn; [apply rtc_refl|reflexivity|discriminate|constructor|auto]. Qed.
Lemma all_peers_boot sl ds n : all_peers (boot sl ds n).
Proof. intros i p Hi. cbn in Hi. apply lookup_replicate in Hi as [-> _]. apply pinv_boot. Qed.

(** ** The server of Net.v beside the process *)
Definition busy_of (p : peer) : option (command * nat) :=
  match runs_on p, hnd (lnk p) with Some j, HExec cmd => Some (cmd, j) | _, _ => None end.
Definition done_of (p : peer) : nat := (length (log (lnk p)) + match runs_on p with Some _ => 1 | None => 0 end)%nat.
Definition conn_of (cs : list command) (p : peer) : conn := mkConn (log (lnk p)) (busy_of p) (drop (done_of p) cs).
Definition fits (css : list (list command)) (x : world) : Prop :=
  forall i p, peers x !! i = Some p -> exists cs rest, css !! i = Some cs /\ cs = handed (lnk p) ++ rest.
Definition net (css : list (list command)) (x : world) : server :=
  mkServer (wsel x) (wcores x) (imap (fun i p => conn_of (default [] (css !! i)) p) (peers x)).
Lemma imap_ins {X Y} (h : nat -> X -> Y) (l : list X) i x : imap h (<[i := x]> l) = <[i := h i x]> (imap h l).
Proof.
  revert h i. induction l as [|a l IH]; intros h [|i]; cbn; auto. rewrite IH. auto.
Qed.
Lemma net_lookup css x i p : peers x !! i = Some p -> sess (net css x) !! i = Some (conn_of (default [] (css !! i)) p).
Proof. intros H. cbn. rewrite list_lookup_imap, H. reflexivity. Qed.
Lemma imap_same (css : list (list command)) x i p p' : peers x !! i = Some p -> (forall cs, conn_of cs p' = conn_of cs p) ->
  imap (fun i p => conn_of (default [] (css !! i)) p) (<[i := p']> (peers x)) = imap (fun i p => conn_of (default [] (css !! i)) p) (peers x).
Proof. intros Hi E. rewrite imap_ins, E. apply list_insert_id. rewrite list_lookup_imap, Hi. reflexivity. Qed.
Lemma drop_handed cs l cmd rest : hnd l = HExec cmd -> cs = handed l ++ rest -> drop (length (log l)) cs = cmd :: rest /\ drop (length (log l) + 1) cs = rest.
Proof.
  intros Hh ->. unfold handed. rewrite Hh. rewrite <- app_assoc. cbn. rewrite <- (map_length fst (log l)). split; [apply drop_app|].
  rewrite <- drop_drop, drop_app. reflexivity.
Qed.
Lemma net_step T css x y : all_peers x -> fits css x -> happens T x y -> net css y = net css x \/ nstep T (net css x) (net css y).
Proof.
  intros A F H. destruct H as [H|H]; destruct H; try (left; reflexivity).
  - left. unfold net. cbn [wsel wcores]. f_equal. refine (imap_same css (mkW sl cs ps sg Running) i _ _ H _). reflexivity.
  - left. unfold net. cbn [wsel wcores]. f_equal. refine (imap_same css (mkW sl cs ps sg Running) i _ _ H _). intros c. inversion H1; subst; reflexivity.
  - left. unfold net. cbn [wsel wcores]. f_equal. refine (imap_same css (mkW sl cs ps sg Running) i _ _ H _). reflexivity.
  - left. unfold net. cbn [wsel wcores]. f_equal. refine (imap_same css (mkW sl cs ps sg Running) i _ _ H _). reflexivity.
  - left. unfold net. cbn [wsel wcores]. f_equal. refine (imap_same css (mkW sl cs ps sg Running) i _ _ H _). intros c.
    unfold conn_of, done_of, busy_of. cbn. rewrite H1. f_equal. destruct o as [j|]; auto. destruct (pv_run _ (A _ _ H) j eq_refl) as (cmd & Hc & _). cbn in Hc.
    inversion H0; subst; cbn in *; try discriminate; auto. exfalso. eapply log_grows; eauto.
  - right. destruct (F _ _ H) as (cs0 & rest & Hcs & E). cbn in E. destruct (drop_handed _ _ _ _ H0 E) as [D1 D2].
    unfold net. cbn [wsel wcores peers]. rewrite imap_ins. cbn. rewrite Hcs. cbn.
    replace (conn_of cs0 (mkPeer Served (reply_to l cmd (select (mkMgr sl (map cdb cs)) cmd).1) None (w ++ bs)))
      with (mkConn (log l ++ [(cmd, (select (mkMgr sl (map cdb cs)) cmd).1)]) None rest)
      by (unfold conn_of, done_of, busy_of; cbn; rewrite app_length; cbn; rewrite Nat.add_0_r, D2; reflexivity).
    eapply N_select; auto. rewrite list_lookup_imap, H. cbn. rewrite Hcs. cbn. unfold conn_of, done_of, busy_of. cbn. rewrite Nat.add_0_r, D1. reflexivity.
  - right. destruct (F _ _ H) as (cs0 & rest & Hcs & E). cbn in E. destruct (drop_handed _ _ _ _ H0 E) as [D1 D2].
    unfold net. cbn [wsel wcores peers]. rewrite imap_ins. rewrite Hcs. change (default [] (Some cs0)) with cs0.
    replace (conn_of cs0 (mkPeer Served l (Some sl) w)) with (mkConn (log l) (Some (cmd, sl)) rest)
      by (unfold conn_of, done_of, busy_of; cbn; rewrite H0, D2; reflexivity).
    eapply N_start; auto. rewrite list_lookup_imap, H. cbn. rewrite Hcs. cbn. unfold conn_of, done_of, busy_of. cbn. rewrite Nat.add_0_r, D1. reflexivity.
  - right. eapply N_run; eauto.
  - right. destruct (F _ _ H) as (cs0 & rest & Hcs & E). cbn in E. destruct (drop_handed _ _ _ _ H0 E) as [D1 D2].
    unfold net. cbn [wsel wcores peers]. rewrite imap_ins. rewrite Hcs. change (default [] (Some cs0)) with cs0.
    replace (conn_of cs0 (mkPeer Served (reply_to l cmd r) None (w ++ bs))) with (mkConn (log l ++ [(cmd, r)]) None rest)
      by (unfold conn_of, done_of, busy_of; cbn; rewrite app_length; cbn; rewrite Nat.add_0_r, D2; reflexivity).
    eapply N_reply; eauto. rewrite list_lookup_imap, H. cbn. rewrite Hcs. cbn. unfold conn_of, done_of, busy_of. cbn. rewrite H0, D2. reflexivity.
Qed.
End WithParams.
