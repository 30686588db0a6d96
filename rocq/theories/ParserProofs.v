(** The parser: independence of fragmentation, fuel, and what it delivers. *)
From Verif Require Export Parser SpecWire Ints.

(** ** Reading *)
Lemma split_nl_app a b : split_nl (a ++ b) =
  match split_nl a with
  | Some (x, y) => Some (x, y ++ b)
  | None => match split_nl b with Some (x, y) => Some (a ++ x, y) | None => None end
  end.
Proof.
  induction a as [|c a IH]; cbn; [destruct (split_nl b) as [[]|]; auto|].
  destruct (code c =? 10)%N; auto. rewrite IH. destruct (split_nl a) as [[]|]; auto.
  destruct (split_nl b) as [[]|]; auto.
Qed.
Lemma read_bytes_spec st : match split_nl (concat st) with
  | Some (a, b) => exists r, read_bytes st = Some (a, r) /\ concat r = b
  | None => read_bytes st = None end.
Proof.
  induction st as [|ch st IH]; cbn; auto. rewrite split_nl_app.
  destruct (split_nl ch) as [[a b]|]; [eexists; split; [reflexivity|reflexivity]|].
  destruct (split_nl (concat st)) as [[a b]|].
  - destruct IH as (r & -> & <-). eauto.
  - rewrite IH; auto.
Qed.
Lemma read_full_spec st n acc : (n > 0)%nat ->
  if Nat.leb n (length (concat st)) then
    exists r, read_full_acc st n acc = RF_ok (acc ++ take n (concat st)) r /\ concat r = drop n (concat st)
  else read_full_acc st n acc = match acc ++ concat st with [] => RF_eof | _ => RF_unexpected end.
Proof.
  revert n acc. induction st as [|ch st IH]; intros n acc Hn; cbn.
  - destruct n; [lia|]. cbn. rewrite app_nil_r. auto.
  - destruct n as [|n]; [lia|]. cbn [read_full_acc]. rewrite app_length.
    destruct (Nat.leb_spec (S n) (length ch)).
    + rewrite (proj2 (Nat.leb_le _ _)) by lia. eexists. split; [rewrite take_app_le by lia; reflexivity|].
      cbn [concat]. rewrite drop_app_le by lia. auto.
    + destruct (Nat.leb_spec (S n) (length ch + length (concat st))).
      * specialize (IH (S n - length ch)%nat (acc ++ ch) ltac:(lia)).
        rewrite (proj2 (Nat.leb_le _ _)) in IH by lia. destruct IH as (r & -> & Hr). eexists. split.
        -- rewrite take_app_ge by lia. rewrite <- app_assoc. reflexivity.
        -- rewrite drop_app_ge by lia. auto.
      * specialize (IH (S n - length ch)%nat (acc ++ ch) ltac:(lia)).
        rewrite (proj2 (Nat.leb_gt _ _)) in IH by lia. rewrite IH, <- app_assoc. auto.
Qed.
Lemma split_nl_len s a b : split_nl s = Some (a, b) -> s = a ++ b /\ (0 < length a)%nat.
Proof.
  revert a b. induction s as [|c s IH]; cbn; intros a b H; [discriminate|].
  destruct (code c =? 10)%N; [injection H as <- <-; cbn; split; auto; lia|].
  destruct (split_nl s) as [[x y]|]; [|discriminate]. injection H as <- <-.
  destruct (IH x y eq_refl) as [-> ?]. cbn. split; auto; lia.
Qed.

(** ** One step only depends on the bytes *)
Definition rl_eqv (x y : rl) : Prop :=
  match x, y with
  | RL_ok m r, RL_ok m' r' => m = m' /\ concat r = concat r'
  | RL_err e r, RL_err e' r' => e = e' /\ concat r = concat r'
  | RL_crash, RL_crash => True
  | _, _ => False
  end.
Lemma readline_eqv b st st' : concat st = concat st' -> rl_eqv (readline st b) (readline st' b).
Proof.
  intros E. unfold readline. destruct (multi_line b).
  - set (n := wrap64 (string_len b + 2)). destruct (make_ok n 1) eqn:Hm; [|cbn; auto].
    unfold read_full. destruct (Z.to_nat n) as [|k] eqn:Hn.
    + destruct st, st'; cbn; auto.
    + pose proof (read_full_spec st (S k) [] ltac:(lia)) as H1.
      pose proof (read_full_spec st' (S k) [] ltac:(lia)) as H2. rewrite E in H1.
      destruct (Nat.leb (S k) (length (concat st'))).
      * destruct H1 as (r1 & -> & Hr1). destruct H2 as (r2 & -> & Hr2).
        destruct (ends_crlf _); cbn; rewrite Hr1, Hr2; auto.
      * rewrite H1, H2. destruct ([] ++ concat st'); cbn; auto.
  - pose proof (read_bytes_spec st) as H1. pose proof (read_bytes_spec st') as H2. rewrite E in H1.
    destruct (split_nl (concat st')) as [[a r]|].
    + destruct H1 as (r1 & -> & Hr1). destruct H2 as (r2 & -> & Hr2).
      destruct (rev a) as [|? [|b1 ?]]; cbn; auto. destruct (code b1 =? 13)%N; cbn; rewrite Hr1, Hr2; auto.
    + rewrite H1, H2. cbn. auto.
Qed.
Definition ps_eqv (x y : pstep_res) : Prop :=
  match x, y with
  | PS_more e b r, PS_more e' b' r' => e = e' /\ b = b' /\ concat r = concat r'
  | PS_close e, PS_close e' => e = e'
  | PS_crash, PS_crash => True
  | _, _ => False
  end.
Lemma pstep_eqv b st st' : concat st = concat st' -> ps_eqv (pstep b st) (pstep b st').
Proof.
  intros E. pose proof (readline_eqv b st st' E) as H. unfold pstep.
  destruct (readline st b) as [m r|e r|], (readline st' b) as [m' r'|e' r'|]; cbn in H; try tauto.
  - destruct H as [<- H].
    repeat first [progress (cbn; auto) | match goal with
      | |- ps_eqv (let '(_, _) := ?x in _) _ => destruct x
      | |- ps_eqv (match ?x with _ => _ end) _ => destruct x end].
  - destruct H as [<- H]. destruct e; cbn; auto.
Qed.
Lemma parse_loop_eqv f : forall b st st', concat st = concat st' -> parse_loop f b st = parse_loop f b st'.
Proof.
  induction f as [|f IH]; intros b st st' E; cbn; auto. pose proof (pstep_eqv b st st' E) as H.
  destruct (pstep b st), (pstep b st'); cbn in H; try tauto.
  - destruct H as (-> & -> & H). erewrite IH; eauto.
  - subst; auto.
Qed.

(** ** Fuel *)
Lemma readline_shrinks st b : match readline st b with
  | RL_ok _ r => (length (concat r) < length (concat st))%nat \/ wrap64 (string_len b + 2) = 0
  | RL_err EEof _ => True
  | RL_err _ r => (length (concat r) < length (concat st))%nat \/ wrap64 (string_len b + 2) = 0
  | RL_crash => True end.
Proof.
  unfold readline. destruct (multi_line b).
  - set (n := wrap64 (string_len b + 2)). destruct (make_ok n 1) eqn:Hm; [|auto]. unfold read_full.
    unfold make_ok in Hm. apply andb_true_iff in Hm as [Hm _]. apply Z.leb_le in Hm.
    destruct (Z.to_nat n) as [|k] eqn:Hn; [assert (n = 0) by lia|].
    { destruct st; cbn; auto. }
    pose proof (read_full_spec st (S k) [] ltac:(lia)) as H1.
    destruct (Nat.leb_spec (S k) (length (concat st))).
    + destruct H1 as (r1 & -> & Hr1). destruct (ends_crlf _); left; rewrite Hr1, drop_length; lia.
    + rewrite H1. cbn. destruct (concat st) eqn:E; auto. left. cbn. lia.
  - pose proof (read_bytes_spec st) as H1. destruct (split_nl (concat st)) as [[a r]|] eqn:E.
    + destruct H1 as (r1 & -> & Hr1). apply split_nl_len in E as [E El]. rewrite E, app_length.
      destruct (rev a) as [|? [|b1 ?]]; auto. destruct (code b1 =? 13)%N; left; rewrite Hr1; lia.
    + rewrite H1. auto.
Qed.
(** The parser's own invariant: a pending bulk length is never negative. *)
Definition buf_ok (b : rbuf) : Prop := multi_line b = true -> 0 <= string_len b <= max_int.
Lemma buf_ok_wrap b : buf_ok b -> multi_line b = true -> wrap64 (string_len b + 2) <> 0.
Proof.
  intros H E. specialize (H E). unfold max_int in H. unfold wrap64. intros Hw.
  destruct (Z.le_gt_cases (string_len b + 2) (2 ^ 63 - 1)).
  - rewrite Z.mod_small in Hw by lia. lia.
  - replace (string_len b + 2 + 2 ^ 63) with ((string_len b + 2 + 2 ^ 63 - 2 ^ 64) + 1 * 2 ^ 64) in Hw by lia.
    rewrite Z_mod_plus_full, Z.mod_small in Hw by lia. lia.
Qed.
Lemma deliver_ok d b evs b2 : multi_line b = false -> deliver d b = (evs, b2) -> multi_line b2 = false.
Proof.
  unfold deliver. intros H. destruct (in_array b); [|intros [= <- <-]; auto].
  destruct (_ =? _); intros [= <- <-]; auto.
Qed.
Lemma parse_int_range s n : parse_int s = (n, None) -> min_int <= n <= max_int.
Proof.
  intros H. assert (E : atoi s = Some n) by (unfold atoi; rewrite H; auto).
  apply atoi_iff in E as [_ E]. unfold fits64, min_int, max_int in *. lia.
Qed.
Lemma pstep_shrinks b st : buf_ok b -> match pstep b st with
  | PS_more _ b' r => (length (concat r) < length (concat st))%nat /\ buf_ok b'
  | _ => True end.
Proof.
  intros Hb. pose proof (readline_shrinks st b) as H. unfold pstep.
  assert (Hs : forall r : stream, (length (concat r) < length (concat st))%nat \/ wrap64 (string_len b + 2) = 0 ->
               multi_line b = true -> (length (concat r) < length (concat st))%nat).
  { intros r [?|?] Hm; auto. destruct (buf_ok_wrap b Hb Hm); auto. }
  assert (Hl : forall m (r : stream), multi_line b = false -> readline st b = RL_ok m r \/ (exists e, e <> EEof /\ readline st b = RL_err e r) ->
               (length (concat r) < length (concat st))%nat).
  { intros m r Hm. unfold readline. rewrite Hm. pose proof (read_bytes_spec st) as H1.
    destruct (split_nl (concat st)) as [[a r0]|] eqn:E.
    - destruct H1 as (r1 & -> & Hr1). apply split_nl_len in E as [E El]. rewrite E, app_length.
      destruct (rev a) as [|? [|b1 ?]]; try (intros [?|(? & ? & ?)]; discriminate).
      destruct (code b1 =? 13)%N; (intros [Hx|(? & ? & Hx)]; [|]); try discriminate; injection Hx; intros; subst; lia.
    - rewrite H1. intros [?|(e & He & Hx)]; [discriminate|]. injection Hx; intros; congruence. }
  assert (He : buf_ok empty_buf) by (intros ?; discriminate).
  destruct (readline st b) as [m r|e r|] eqn:E; auto.
  - destruct (multi_line b) eqn:Hm.
    + destruct (deliver _ _) as [evs b2] eqn:Ed. split; [apply Hs; auto|]. intros Hx.
      apply deliver_ok in Ed; [congruence|reflexivity].
    + assert (Hlt : (length (concat r) < length (concat st))%nat) by (eapply Hl; eauto).
      destruct m as [|t m]; auto.
      destruct (code t =? 36)%N.
      * unfold parse_bulk_header. destruct (parse_int _) as [n [|]] eqn:En; auto.
        apply parse_int_range in En.
        destruct (Z.ltb_spec n (-1)); auto. cbn [string_len]. destruct (Z.eqb_spec n (-1)).
        -- subst. cbn [Z.ltb Z.compare]. destruct (deliver _ _) as [evs b2] eqn:Ed. split; auto.
           intros Hx. cbn in Hx. apply deliver_ok in Ed; [congruence|auto].
        -- split; auto. intros _. cbn [string_len]. unfold max_int in *. lia.
      * destruct (code t =? 42)%N.
        -- unfold parse_array_header. destruct (parse_int _) as [n [|]] eqn:En; auto.
           destruct (n <? -1); auto.
           assert (forall b', multi_line b' = false -> buf_ok b') by (intros b' Hb' ?; congruence).
           destruct (0 <? n); cbn [array_len]; repeat (destruct (_ =? _)); split; auto.
        -- destruct (parse_single_line _) as [[d|e]|]; auto. destruct (deliver d b) as [evs b2] eqn:Ed. split; auto.
           intros Hx. apply deliver_ok in Ed; [congruence|auto].
  - assert (Hlt : e <> EEof -> (length (concat r) < length (concat st))%nat).
    { intros Hne. destruct (multi_line b) eqn:Hm; [|eapply (Hl []); eauto].
      apply Hs; auto. destruct e; congruence. }
    destruct e; auto; split; auto; apply Hlt; discriminate.
Qed.
Lemma parse_loop_fuel f : forall f' b st, buf_ok b -> (length (concat st) < f)%nat -> (length (concat st) < f')%nat ->
  parse_loop f b st = parse_loop f' b st.
Proof.
  induction f as [|f IH]; intros f' b st Hb H1 H2; [lia|]. destruct f' as [|f']; [lia|]. cbn.
  pose proof (pstep_shrinks b st Hb) as Hs. destruct (pstep b st); auto. destruct Hs as [Hs Hb'].
  rewrite (IH f') by (auto; lia). auto.
Qed.
Lemma parse_loop_ends f : forall b st, buf_ok b -> (length (concat st) < f)%nat -> (parse_loop f b st).2 <> OutOfFuel.
Proof.
  induction f as [|f IH]; intros b st Hb H1; [lia|]. cbn.
  pose proof (pstep_shrinks b st Hb) as Hs. destruct (pstep b st); try discriminate. destruct Hs as [Hs Hb'].
  specialize (IH b0 rest Hb' ltac:(lia)). destruct (parse_loop f b0 rest); auto.
Qed.
Theorem parse_stream_ends st : (parse_stream st).2 <> OutOfFuel.
Proof. apply parse_loop_ends; [intros ?; discriminate|lia]. Qed.
Theorem parse_stream_chunks st st' : concat st = concat st' -> parse_stream st = parse_stream st'.
Proof. intros E. unfold parse_stream. rewrite E. apply parse_loop_eqv; auto. Qed.
