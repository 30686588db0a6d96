(** The grammar of the parser: proofs. *)
From Verif Require Export SpecGrammar WireProofs.
#[local] Arguments Pr : simpl never.
#[local] Arguments readline : simpl never.
#[local] Arguments pstep : simpl never.

(** ** Numbers *)
Lemma int_of_parse s n : int_of s n <-> parse_int s = (n, None).
Proof.
  unfold int_of. rewrite <- atoi_iff. unfold atoi. destruct (parse_int s) as [m [|]]; split; congruence.
Qed.
Lemma parse_int_cases s : (exists n, int_of s n /\ parse_int s = (n, None)) \/ ((forall n, ~ int_of s n) /\ exists n e, parse_int s = (n, Some e)).
Proof.
  destruct (parse_int s) as [n [e|]] eqn:E; [right|left].
  - split; eauto. intros m Hm. apply int_of_parse in Hm. congruence.
  - exists n. split; auto. apply int_of_parse. auto.
Qed.
Lemma int_of_fun s n m : int_of s n -> int_of s m -> n = m.
Proof. rewrite !int_of_parse. congruence. Qed.
Lemma bulk_len_int l n : bulk_len l n -> int_of l n.
Proof. intros (H1 & H2 & H3). split; auto. unfold fits64. lia. Qed.

(** ** Elem line *)
Definition at_piece (b : rbuf) (o : option (Z * list rdata)) : Prop :=
  multi_line b = false /\ match o with None => in_array b = false | Some (n, got) => in_array b = true /\ array_len b = n /\ array_data b = got end.
Lemma at_piece_ok b o : at_piece b o -> buf_ok b.
Proof. intros [H _] E. congruence. Qed.
Lemma at_piece_empty : at_piece empty_buf None. Proof. split; reflexivity. Qed.
Lemma line_pstep b (c : ascii) l r : multi_line b = false -> code c <> 10%N -> no_lf l ->
  pstep b [c :: l ++ CRLF ++ r] =
    if (code c =? 36)%N then
      match parse_int l with
      | (n, None) =>
          if n <? -1 then PS_more [EvErr ESyntax] empty_buf [r]
          else if n =? -1 then let '(evs, b2) := deliver (RBulk None) (mkBuf n false (array_len b) (in_array b) (array_data b)) in
               PS_more evs (mkBuf 0 (multi_line b2) (array_len b2) (in_array b2) (array_data b2)) [r]
          else PS_more [] (mkBuf n true (array_len b) (in_array b) (array_data b)) [r]
      | _ => PS_more [EvErr ESyntax] empty_buf [r]
      end
    else if (code c =? 42)%N then
      match parse_int l with
      | (n, None) =>
          if n <? -1 then PS_more [EvErr ESyntax] empty_buf [r]
          else if 0 <? n then PS_more [] (mkBuf (string_len b) false n true []) [r]
          else PS_more [EvData (RArr (if n =? -1 then None else Some []))] (mkBuf (string_len b) false 0 (in_array b) (array_data b)) [r]
      | _ => PS_more [EvErr ESyntax] empty_buf [r]
      end
    else
      let one d := let '(evs, b2) := deliver d b in PS_more evs b2 [r] in
      if (code c =? 43)%N then one (RStr l)
      else if (code c =? 45)%N then one (RErr l)
      else if (code c =? 58)%N then match parse_int l with (n, None) => one (RInt n) | _ => PS_more [EvErr ESyntax] empty_buf [r] end
      else one RNil.
Proof.
  intros Hm Hc Hl. change (c :: l ++ CRLF ++ r) with ((c :: l) ++ CRLF ++ r). unfold pstep. rewrite readline_line; [|auto|constructor; auto].
  rewrite Hm. cbn [app]. assert (Eb : take (length (c :: l ++ CRLF) - 3) (drop 1 (c :: l ++ CRLF)) = l).
  { cbn. rewrite app_length. cbn. rewrite drop_0. replace (length l + 2 - 2)%nat with (length l) by lia. apply take_app. }
  destruct (code c =? 36)%N; [|destruct (code c =? 42)%N].
  - unfold parse_bulk_header. rewrite Eb. destruct (parse_int l) as [n [e|]]; auto. destruct (Z.ltb_spec n (-1)); auto. cbn [string_len]. rewrite Hm.
    destruct (Z.eqb_spec n (-1)) as [->|]; [reflexivity|]. destruct (Z.ltb_spec (-1) n); [auto|lia].
  - unfold parse_array_header. rewrite Eb. destruct (parse_int l) as [n [e|]]; auto. rewrite Hm. destruct (Z.ltb_spec n (-1)); auto. destruct (Z.ltb_spec 0 n); cbn [array_len string_len multi_line in_array array_data].
    + destruct (Z.eqb_spec n (-1)); [lia|]. destruct (Z.eqb_spec n 0); [lia|]. auto.
    + destruct (Z.eqb_spec n (-1)); auto. destruct (Z.eqb_spec n 0); [subst; auto|lia].
  - unfold parse_single_line, body. replace (Nat.ltb (length (c :: l ++ CRLF)) 3) with false.
    2:{ symmetry. apply Nat.ltb_ge. cbn. rewrite app_length. cbn. lia. }
    rewrite Eb. cbv zeta. destruct (code c =? 43)%N; auto. destruct (code c =? 45)%N; auto. destruct (code c =? 58)%N; auto. destruct (parse_int l) as [n [e|]]; auto.
Qed.
Lemma deliver_stands b o d : at_piece b o -> match deliver d b with (evs, b2) => forall ks, exists o', at_piece b2 o' /\ values o (Elem d :: ks) = evs ++ values o' ks end.
Proof.
  intros [Hm Ho]. unfold deliver. destruct o as [[n got]|].
  - destruct Ho as (E1 & E2 & E3). rewrite E1, E2, E3. assert (E : zlen (got ++ [d]) = zlen got + 1) by (unfold zlen; rewrite app_length; cbn; lia).
    rewrite E. cbn [values]. destruct (zlen got + 1 =? n); intros ks; eexists; (split; [|reflexivity]); repeat split; auto.
  - rewrite Ho. intros ks. exists None. split; [split; auto|reflexivity].
Qed.
Lemma Pr_one b o d r ks x : at_piece b o -> pstep b [x] = (let '(evs, b2) := deliver d b in PS_more evs b2 [r]) ->
  exists b2 o2 evs, at_piece b2 o2 /\ Pr b x = pre evs (Pr b2 r) /\ values o (Elem d :: ks) = evs ++ values o2 ks.
Proof.
  intros H E. pose proof (deliver_stands b o d H) as HD. rewrite (Pr_unfold b) by (eapply at_piece_ok; eauto). rewrite E. destruct (deliver d b) as [evs b2]. destruct (HD ks) as (o2 & H2 & E2).
  exists b2, o2, evs. split; auto. cbn [concat]. rewrite app_nil_r. auto.
Qed.
Lemma Pr_wrong b o e r ks x : at_piece b o -> pstep b [x] = PS_more [EvErr e] empty_buf [r] ->
  exists b2 o2 evs, at_piece b2 o2 /\ Pr b x = pre evs (Pr b2 r) /\ values o (Wrong e :: ks) = evs ++ values o2 ks.
Proof.
  intros H E. rewrite (Pr_unfold b) by (eapply at_piece_ok; eauto). rewrite E. exists empty_buf, None, [EvErr e]. split; [apply at_piece_empty|]. cbn [concat]. rewrite app_nil_r. auto.
Qed.

(** ** Bulk strings *)
Definition bulk_of (b : rbuf) (n : Z) : rbuf := mkBuf n true (array_len b) (in_array b) (array_data b).
Lemma Pr_header b o l n r : at_piece b o -> int_of l n -> 0 <= n -> Pr b (B "$" ++ l ++ CRLF ++ r) = Pr (bulk_of b n) r.
Proof.
  intros H Hi Hn. rewrite (Pr_unfold b) by (eapply at_piece_ok; eauto). cbn [B list_ascii_of_string app]. rewrite line_pstep; [|apply H|vm_compute; discriminate|eapply denotes_nonl; apply Hi].
  change ((code "$" =? 36)%N) with true. cbn match. rewrite (proj1 (int_of_parse _ _) Hi). destruct (Z.ltb_spec n (-1)); [lia|]. destruct (Z.eqb_spec n (-1)); [lia|]. cbn [concat]. rewrite app_nil_r, pre_nil. auto.
Qed.
Lemma bulk_of_ok b n : 0 <= n -> fits64 n -> buf_ok (bulk_of b n).
Proof. intros H1 H2 _. cbn. unfold fits64, max_int in *. lia. Qed.
Lemma bulk_long b n r : 0 <= n -> fits64 n -> 2 ^ 48 < n + 2 -> Pr (bulk_of b n) r = ([], Crashed).
Proof.
  intros H1 H2 H3. rewrite Pr_unfold by (apply bulk_of_ok; auto). unfold pstep, readline. cbn [multi_line bulk_of string_len].
  replace (make_ok (wrap64 (n + 2)) 1) with false; auto. symmetry. unfold make_ok, wrap64. apply andb_false_iff. unfold fits64 in H2.
  destruct (Z.lt_ge_cases (n + 2) (2 ^ 63)).
  - rewrite Z.mod_small by lia. right. apply Z.leb_gt. lia.
  - left. apply Z.leb_gt. replace (n + 2 + 2 ^ 63) with ((n + 2 + 2 ^ 63 - 2 ^ 64) + 1 * 2 ^ 64) by lia. rewrite Z_mod_plus_full, Z.mod_small by lia. lia.
Qed.
Lemma bulk_readline b n (s r : bytes) : 0 <= n -> n + 2 <= 2 ^ 48 -> zlen s = n + 2 -> exists st, concat st = r /\
  readline [s ++ r] (bulk_of b n) = if ends_crlf s then RL_ok s st else RL_err EInvalid st.
Proof.
  intros H1 H2 H3. unfold readline. cbn [multi_line bulk_of string_len].
  assert (E : wrap64 (n + 2) = n + 2) by (unfold wrap64; rewrite Z.mod_small by lia; lia).
  rewrite E. replace (make_ok (n + 2) 1) with true by (symmetry; unfold make_ok; apply andb_true_iff; split; apply Z.leb_le; lia).
  unfold read_full. pose proof (read_full_spec [s ++ r] (Z.to_nat (n + 2)) [] ltac:(lia)) as H. assert (Hn : Z.to_nat (n + 2) = length s) by (unfold zlen in H3; lia).
  cbn [concat] in H. rewrite app_nil_r in H. rewrite (proj2 (Nat.leb_le _ _)) in H by (rewrite app_length; lia). destruct H as (st & H & Hst). rewrite Hn, take_app in H. rewrite Hn, drop_app in Hst.
  exists st. split; auto. rewrite Hn. rewrite H. reflexivity.
Qed.
Lemma ends_crlf_iff s : ends_crlf s = true <-> exists k, s = k ++ CRLF.
Proof.
  split.
  - unfold ends_crlf. intros H. destruct (rev s) as [|x [|y l]] eqn:E; try discriminate. apply andb_true_iff in H as [H1 H2]. apply N.eqb_eq in H1, H2.
    exists (rev l). rewrite <- (rev_involutive s), E. cbn. rewrite <- app_assoc. unfold CRLF, CR, LF. rewrite <- H1, <- H2. unfold code. rewrite !ascii_N_embedding. reflexivity.
  - intros [k ->]. apply ends_crlf_ok.
Qed.

(** ** Pieces *)
Lemma bare_split (l r : bytes) : no_lf l -> split_nl (l ++ LF :: r) = Some (l ++ [LF], r).
Proof. intros H. induction H as [|c l Hc H IH]; [reflexivity|]. cbn [app split_nl]. apply N.eqb_neq in Hc. rewrite Hc, IH. auto. Qed.
Lemma ends_cr l : (exists k, l = k ++ [CR]) \/ (forall k, l <> k ++ [CR]).
Proof.
  destruct (rev l) as [|c k] eqn:E.
  - right. intros k ->. rewrite rev_app_distr in E. discriminate.
  - assert (El : l = rev k ++ [c]) by (rewrite <- (rev_involutive l), E; reflexivity). destruct (decide (c = CR)) as [->|N]; [left; eauto|].
    right. intros k' E'. rewrite El in E'. apply app_inj_tail in E' as [_ E']. auto.
Qed.
Lemma bare_pstep b (l r : bytes) : multi_line b = false -> no_lf l -> l <> [] -> (forall k, l <> k ++ [CR]) -> pstep b [l ++ LF :: r] = PS_more [EvErr EInvalid] empty_buf [r].
Proof.
  intros Hm Hl Hn Hc. unfold pstep, readline. rewrite Hm. cbn [read_bytes]. rewrite bare_split by auto. rewrite rev_app_distr. cbn.
  destruct (rev l) as [|c k] eqn:E; [destruct Hn; rewrite <- (rev_involutive l), E; reflexivity|].
  assert (El : l = rev k ++ [c]) by (rewrite <- (rev_involutive l), E; reflexivity).
  destruct (N.eqb_spec (code c) 13) as [E13|]; auto. destruct (Hc (rev k)). rewrite El. unfold CR. rewrite <- E13. unfold code. rewrite ascii_N_embedding. auto.
Qed.
Lemma dollar_nolf : code "$" <> 10%N. Proof. discriminate. Qed.
Ltac line_piece := cbn [B list_ascii_of_string app]; rewrite line_pstep; [repeat match goal with |- context [(code (Ascii ?a ?b ?c ?d ?e ?f ?g ?h) =? ?k)%N] => let v := eval vm_compute in (code (Ascii a b c d e f g h) =? k)%N in change (code (Ascii a b c d e f g h) =? k)%N with v end; cbv iota|assumption|discriminate|auto].
Lemma piece_step b o p k r ks : piece_of p k -> at_piece b o -> exists b2 o2 evs, at_piece b2 o2 /\ Pr b (p ++ r) = pre evs (Pr b2 r) /\ values o (k :: ks) = evs ++ values o2 ks.
Proof.
  intros Hp Hst. pose proof (proj1 Hst) as Hm.
  assert (Hdl : forall l n, denotes l n -> no_lf l) by (intros l n H; eapply denotes_nonl; eauto).
  destruct Hp as [l H1 H2 H3|l H1|l H1|l n H1|l H1 H2|l H1|l s H1|l n s H1 H2 H3|l H1 H2|l n H1 H2|l H1|l H1|l H1 H2|c l H1 H2]; rewrite <- ?app_assoc.
  - eapply Pr_wrong; eauto. apply bare_pstep; auto.
  - eapply Pr_one; eauto. line_piece. reflexivity.
  - eapply Pr_one; eauto. line_piece. reflexivity.
  - eapply Pr_one; eauto. line_piece; [|apply (Hdl _ n), H1]. rewrite (proj1 (int_of_parse _ _) H1). reflexivity.
  - eapply Pr_wrong; eauto. line_piece. change (parse_int l) with (parse_int l). destruct (parse_int_cases l) as [(n & Hn & _)|(_ & n & e & ->)]; [destruct (H2 n); auto|reflexivity].
  - assert (Hi : int_of l (-1)) by (split; [auto|split; reflexivity || discriminate]).
    pose proof (deliver_stands (mkBuf (-1) false (array_len b) (in_array b) (array_data b)) o (RBulk None)) as HD. specialize (HD ltac:(destruct Hst as [_ Hst]; split; auto)).
    rewrite (Pr_unfold b) by (eapply at_piece_ok; eauto). line_piece; [|eapply Hdl; eauto]. rewrite (proj1 (int_of_parse _ _) Hi). cbn [Z.ltb Z.compare Z.eqb Pos.compare Pos.compare_cont Pos.eqb CompOpp].
    destruct (deliver _ _) as [evs b2]. destruct (HD ks) as (o2 & [H3 H4] & E2). eexists _, o2, evs. split; [|cbn [concat]; rewrite app_nil_r; split; [reflexivity|auto]]. split; auto.
  - assert (Hi := bulk_len_int _ _ H1). destruct H1 as (_ & H1 & H2). rewrite (Pr_header b o l (zlen s)) by auto. 
    destruct (bulk_readline b (zlen s) (s ++ CRLF) r) as (st & Es & E); auto; [unfold zlen; rewrite app_length; cbn; lia|]. rewrite ends_crlf_ok, <- app_assoc in E.
    rewrite Pr_unfold by (apply bulk_of_ok; [auto|apply Hi]). unfold pstep. unfold bytes, stream in *. rewrite E. cbn [multi_line bulk_of array_len in_array array_data]. rewrite take_crlf.
    pose proof (deliver_stands (mkBuf 0 false (array_len b) (in_array b) (array_data b)) o (RBulk (Some s))) as HD. specialize (HD ltac:(destruct Hst as [_ Hst]; split; auto)).
    destruct (deliver _ _) as [evs b2]. destruct (HD ks) as (o2 & H4 & E2). exists b2, o2, evs. rewrite Es. auto.
  - assert (Hi := bulk_len_int _ _ H1). destruct H1 as (_ & H1 & H1'). rewrite (Pr_header b o l n) by auto.
    destruct (bulk_readline b n s r) as (st & Es & E); auto. destruct (ends_crlf s) eqn:Ec; [apply ends_crlf_iff in Ec as [k ->]; destruct (H3 k); auto|].
    rewrite Pr_unfold by (apply bulk_of_ok; [auto|apply Hi]). unfold pstep. unfold bytes, stream in *. rewrite E. exists empty_buf, None, [EvErr EInvalid]. rewrite Es. split; [apply at_piece_empty|]. auto.
  - eapply Pr_wrong; eauto. line_piece. destruct (parse_int_cases l) as [(n & Hn & E)|(_ & n & e & ->)]; [rewrite E; apply H2 in Hn|reflexivity]. destruct (Z.ltb_spec n (-1)); [auto|lia].
  - rewrite (Pr_unfold b) by (eapply at_piece_ok; eauto). line_piece; [|apply (Hdl _ n), H1]. rewrite (proj1 (int_of_parse _ _) H1). destruct (Z.ltb_spec n (-1)); [lia|]. destruct (Z.ltb_spec 0 n); [|lia].
    eexists _, (Some (n, [])), []. cbn [concat]. rewrite app_nil_r. split; [|split; reflexivity]. repeat split.
  - assert (Hi : int_of l 0) by (split; [auto|split; reflexivity || discriminate]).
    rewrite (Pr_unfold b) by (eapply at_piece_ok; eauto). line_piece; [|eapply Hdl; eauto]. rewrite (proj1 (int_of_parse _ _) Hi). cbn [Z.ltb Z.compare Z.eqb Pos.compare Pos.compare_cont Pos.eqb CompOpp].
    eexists _, _, [_]. cbn [concat]. rewrite app_nil_r. split; [|split; reflexivity]. destruct Hst as [_ Hst]. destruct o as [[n got]|]; split; auto. destruct Hst as (? & ? & ?). auto.
  - assert (Hi : int_of l (-1)) by (split; [auto|split; reflexivity || discriminate]).
    rewrite (Pr_unfold b) by (eapply at_piece_ok; eauto). line_piece; [|eapply Hdl; eauto]. rewrite (proj1 (int_of_parse _ _) Hi). cbn [Z.ltb Z.compare Z.eqb Pos.compare Pos.compare_cont Pos.eqb CompOpp].
    eexists _, _, [_]. cbn [concat]. rewrite app_nil_r. split; [|split; reflexivity]. destruct Hst as [_ Hst]. destruct o as [[n got]|]; split; auto. destruct Hst as (? & ? & ?). auto.
  - eapply Pr_wrong; eauto. line_piece. destruct (parse_int_cases l) as [(n & Hn & E)|(_ & n & e & ->)]; [rewrite E; apply H2 in Hn|reflexivity]. destruct (Z.ltb_spec n (-1)); [auto|lia].
  - rewrite !not_elem_of_cons in H1. destruct H1 as (N1 & N2 & N3 & N4 & N5 & N6 & _). eapply Pr_one; eauto. cbn [app]. rewrite <- app_assoc. rewrite line_pstep by auto.
    rewrite !(proj2 (N.eqb_neq _ _)) by auto. reflexivity.
Qed.
(** ** The end *)
Lemma rest_end b o s t : rest_of s t -> at_piece b o -> Pr b s = (ending_values t, ending_of t).
Proof.
  intros Hr Hst. pose proof (proj1 Hst) as Hm. pose proof (at_piece_ok _ _ Hst) as Hb.
  destruct Hr as [l H|l n H|l n s H H1 H2|s|s|l n s H H1].
  - apply Pr_nonl; auto.
  - pose proof (bulk_len_int _ _ H) as Hi. destruct H as (_ & H1 & H2). rewrite <- (app_nil_r CRLF). rewrite (Pr_header b o l n) by auto. rewrite Pr_unfold by (apply bulk_of_ok; [auto|apply Hi]).
    unfold pstep, readline. cbn [multi_line bulk_of string_len]. assert (E : wrap64 (n + 2) = n + 2) by (unfold wrap64; rewrite Z.mod_small by lia; lia).
    rewrite E. replace (make_ok (n + 2) 1) with true by (symmetry; unfold make_ok; apply andb_true_iff; split; apply Z.leb_le; lia).
    unfold read_full. pose proof (read_full_spec [[]] (Z.to_nat (n + 2)) [] ltac:(lia)) as HR. cbn [concat app length] in HR. rewrite (proj2 (Nat.leb_gt _ _)) in HR by lia. unfold bytes, stream in *. rewrite HR. reflexivity.
  - pose proof (bulk_len_int _ _ H) as Hi. destruct H as (_ & H3 & H4). rewrite (Pr_header b o l n) by auto. rewrite Pr_unfold by (apply bulk_of_ok; [auto|apply Hi]).
    unfold pstep, readline. cbn [multi_line bulk_of string_len]. assert (E : wrap64 (n + 2) = n + 2) by (unfold wrap64; rewrite Z.mod_small by lia; lia).
    rewrite E. replace (make_ok (n + 2) 1) with true by (symmetry; unfold make_ok; apply andb_true_iff; split; apply Z.leb_le; lia).
    unfold read_full. pose proof (read_full_spec [s] (Z.to_nat (n + 2)) [] ltac:(lia)) as HR. cbn [concat app length] in HR. rewrite app_nil_r in HR. rewrite (proj2 (Nat.leb_gt _ _)) in HR by (unfold zlen in H2; lia). unfold bytes, stream in *. rewrite HR.
    destruct s as [|x s]; [destruct H1; auto|]. cbn [concat]. rewrite (Pr_eof empty_buf) by (auto; apply empty_ok). reflexivity.
  - rewrite Pr_unfold by auto. unfold pstep, readline. rewrite Hm. reflexivity.
  - rewrite Pr_unfold by auto. unfold pstep. pose proof (readline_line b [] s Hm (Forall_nil _)) as E. cbn [app] in E. cbn [app]. unfold bytes, stream in *. rewrite E, Hm. reflexivity.
  - rewrite (Pr_header b o l n) by (auto; lia). apply bulk_long; [lia|apply H|auto].
Qed.
Theorem grammar_exact st ks t : reads_as (concat st) ks t -> parse_stream st = (values None ks ++ ending_values t, ending_of t).
Proof.
  rewrite parse_stream_Pr. assert (G : forall s, reads_as s ks t -> forall b o, at_piece b o -> Pr b s = (values o ks ++ ending_values t, ending_of t)).
  { intros s H. induction H as [s t Hr|p k s ks t Hp H IH]; intros b o Hst; [apply (rest_end _ _ _ _ Hr Hst)|].
    destruct (piece_step b o p k s ks Hp Hst) as (b2 & o2 & evs & H2 & E1 & E2). rewrite E1, E2, (IH b2 o2 H2). unfold pre. cbn. rewrite app_assoc. auto. }
  intros H. apply (G _ H _ _ at_piece_empty).
Qed.

(** ** Every stream is covered *)
Lemma lf_cases s : no_lf s \/ exists l r, no_lf l /\ s = l ++ LF :: r.
Proof.
  induction s as [|c s IH]; [left; constructor|]. destruct (decide (c = LF)) as [->|N]; [right; exists [], s; split; [constructor|auto]|].
  assert (Hc : code c <> 10%N) by (intros E; apply N; unfold LF; rewrite <- E; unfold code; rewrite ascii_N_embedding; auto).
  destruct IH as [H|(l & r & H & ->)]; [left; constructor; auto|]. right. exists (c :: l), r. split; [constructor; auto|auto].
Qed.
Lemma code_is c k : code c = k -> c = ascii_of_N k.
Proof. intros <-. unfold code. rewrite ascii_N_embedding. auto. Qed.
Lemma reads_next x p k s : x = p ++ s -> (forall s', (length s' < length x)%nat -> exists ks t, reads_as s' ks t) -> piece_of p k -> p <> [] -> exists ks t, reads_as x ks t.
Proof.
  intros -> IH Hp Hn. destruct (IH s) as (ks & t & H). { rewrite app_length. destruct p; [destruct Hn; auto|cbn; lia]. }
  exists (k :: ks), t. constructor; auto.
Qed.
Theorem grammar_total s : exists ks t, reads_as s ks t.
Proof.
  remember (length s) as n eqn:En. revert s En. induction n as [n IHn] using (well_founded_induction Wf_nat.lt_wf). intros s ->.
  assert (IH : forall s', (length s' < length s)%nat -> exists ks t, reads_as s' ks t) by (intros s' H; eapply IHn; eauto). clear IHn.
  destruct (lf_cases s) as [H|(l & r & H & ->)]; [exists [], Over; constructor; constructor; auto|].
  destruct (ends_cr l) as [[k ->]|Hc].
  2:{ destruct l as [|c l]; [exists [], Fatal; constructor; cbn; constructor|]. eapply reads_next; [|exact IH|apply (pc_bare (c :: l)); auto; discriminate|discriminate]. rewrite <- app_assoc; reflexivity. }
  assert (E0 : (k ++ [CR]) ++ LF :: r = k ++ CRLF ++ r) by (rewrite <- app_assoc; reflexivity). rewrite E0 in IH |- *. clear E0. apply Forall_app in H as [H _].
  destruct k as [|c l]; [exists [], Fatal; constructor; constructor|]. inversion H as [|? ? Hc Hl]; subst. clear H.
  assert (Hg : forall q, piece_of (c :: l ++ CRLF) q -> exists ks t, reads_as ((c :: l) ++ CRLF ++ r) ks t).
  { intros q Hq. eapply reads_next; [|exact IH|exact Hq|discriminate]. cbn [app]. rewrite <- app_assoc. reflexivity. }
  destruct (N.eqb_spec (code c) 36) as [E|N1].
  { apply code_is in E. subst c. change (ascii_of_N 36) with "$"%char in *. destruct (parse_int_cases l) as [(n & Hn & _)|(Hn & _)].
    2:{ apply (Hg (Wrong ESyntax)). apply pc_nolen; auto. intros n H. destruct (Hn n H). }
    destruct (Z.lt_ge_cases n (-1)); [apply (Hg (Wrong ESyntax)), pc_nolen; auto; intros m Hm; rewrite (int_of_fun _ _ _ Hm Hn); auto|].
    destruct (Z.eq_dec n (-1)) as [->|]; [apply (Hg (Elem (RBulk None))), pc_null, Hn|].
    destruct (Z.lt_ge_cases (2 ^ 48) (n + 2)); [exists [], Fatal; constructor; apply (rs_long l n r); auto|].
    assert (Hb : bulk_len l n) by (split; [apply Hn|lia]).
    destruct (Z.lt_ge_cases (zlen r) (n + 2)) as [Hlt|Hge].
    - destruct r as [|x r]; [exists [], Over; constructor; rewrite app_nil_r; apply (rs_header l n); auto|]. exists [], Inside. constructor. apply (rs_inside l n (x :: r)); auto; discriminate.
    - assert (Er : r = take (Z.to_nat (n + 2)) r ++ drop (Z.to_nat (n + 2)) r) by (symmetry; apply take_drop).
      assert (Hz : zlen (take (Z.to_nat (n + 2)) r) = n + 2) by (unfold zlen in *; rewrite take_length; lia).
      set (x := take (Z.to_nat (n + 2)) r) in *. set (y := drop (Z.to_nat (n + 2)) r) in *.
      assert (Hp : exists q, piece_of (B "$" ++ l ++ CRLF ++ x) q).
      { destruct (ends_crlf x) eqn:Ex; [apply ends_crlf_iff in Ex as [k Ex]|].
        - assert (zlen k = n). { rewrite Ex in Hz. unfold zlen in *. rewrite app_length in Hz. cbn in Hz. lia. } rewrite Ex. exists (Elem (RBulk (Some k))). apply pc_bulk. congruence.
        - exists (Wrong EInvalid). apply (pc_nobulk l n); auto. intros k Ek. assert (ends_crlf x = true) by (apply ends_crlf_iff; eauto). congruence. }
      destruct Hp as [q Hq]. eapply (reads_next _ _ _ y); [|exact IH|exact Hq|discriminate]. rewrite Er at 1. cbn [B list_ascii_of_string app]. rewrite <- !app_assoc. reflexivity. }
  destruct (N.eqb_spec (code c) 42) as [E|N2].
  { apply code_is in E. subst c. change (ascii_of_N 42) with "*"%char in *. destruct (parse_int_cases l) as [(n & Hn & _)|(Hn & _)].
    2:{ apply (Hg (Wrong ESyntax)). apply pc_noarray; auto. intros n H. destruct (Hn n H). }
    destruct (Z.lt_ge_cases n (-1)); [apply (Hg (Wrong ESyntax)), pc_noarray; auto; intros m Hm; rewrite (int_of_fun _ _ _ Hm Hn); auto|].
    destruct (Z.eq_dec n (-1)) as [->|]; [apply (Hg NullArr), pc_nullarr, Hn|]. destruct (Z.eq_dec n 0) as [->|]; [apply (Hg NoElems), pc_empty, Hn|].
    apply (Hg (Array n)), pc_array; auto; lia. }
  destruct (N.eqb_spec (code c) 43) as [E|N3]; [apply code_is in E; subst c; apply (Hg (Elem (RStr l))), pc_str; auto|].
  destruct (N.eqb_spec (code c) 45) as [E|N4]; [apply code_is in E; subst c; apply (Hg (Elem (RErr l))), pc_err; auto|].
  destruct (N.eqb_spec (code c) 58) as [E|N5].
  { apply code_is in E; subst c. destruct (parse_int_cases l) as [(n & Hn & _)|(Hn & _)]; [apply (Hg (Elem (RInt n))), pc_int; auto|apply (Hg (Wrong ESyntax)), pc_noint; auto]. }
  apply (Hg (Elem RNil)), pc_other; auto. rewrite !not_elem_of_cons. repeat split; auto. inversion 1.
Qed.
Theorem grammar_crash st : (parse_stream st).2 = Crashed <-> exists ks, reads_as (concat st) ks Fatal.
Proof.
  split.
  - intros E. destruct (grammar_total (concat st)) as (ks & t & H). rewrite (grammar_exact _ _ _ H) in E. destruct t; try discriminate. eauto.
  - intros [ks H]. rewrite (grammar_exact _ _ _ H). reflexivity.
Qed.
