(** What the parser delivers for streams of commands, complete or truncated. *)
From Verif Require Export ParserProofs.

(** Everything parsed from the bytes [s] in state [b]. *)
Definition Pr (b : rbuf) (s : bytes) : list event * ending := parse_loop (S (length s)) b [s].
Definition pre (evs : list event) (r : list event * ending) : list event * ending := (evs ++ r.1, r.2).

Lemma parse_stream_Pr st : parse_stream st = Pr empty_buf (concat st).
Proof.
  unfold parse_stream, Pr. apply parse_loop_eqv. cbn. rewrite app_nil_r. auto.
Qed.
Lemma parse_loop_S f b st : parse_loop (S f) b st =
  match pstep b st with
  | PS_crash => ([], Crashed)
  | PS_close evs => (evs, Closed)
  | PS_more evs b' st' => let '(evs', e) := parse_loop f b' st' in (evs ++ evs', e)
  end.
Proof. reflexivity. Qed.
Lemma Pr_unfold b s : buf_ok b -> Pr b s =
  match pstep b [s] with
  | PS_crash => ([], Crashed)
  | PS_close evs => (evs, Closed)
  | PS_more evs b' st' => pre evs (Pr b' (concat st'))
  end.
Proof.
  intros Hb. unfold Pr. rewrite parse_loop_S. pose proof (pstep_shrinks b [s] Hb) as Hs.
  destruct (pstep b [s]) as [evs b' st'| |]; auto. destruct Hs as [Hs Hb']. cbn [concat] in Hs.
  rewrite app_nil_r in Hs. rewrite (parse_loop_eqv _ b' st' [concat st']) by (cbn; rewrite app_nil_r; auto).
  rewrite (parse_loop_fuel _ (S (length (concat st')))) by (auto; cbn [concat]; rewrite app_nil_r; lia).
  unfold pre. destruct (parse_loop _ _ _); auto.
Qed.

(** ** Lines *)
Definition no_nl (s : bytes) : Prop := Forall (fun c => code c <> 10%N) s.
Lemma split_nl_line s r : no_nl s -> split_nl (s ++ CRLF ++ r) = Some (s ++ CRLF, r).
Proof.
  intros H. induction H as [|c s Hc H IH]; [reflexivity|]. cbn [app split_nl].
  apply N.eqb_neq in Hc. rewrite Hc, IH. auto.
Qed.
Lemma split_nl_none s : no_nl s -> split_nl s = None.
Proof.
  intros H. induction H as [|c s Hc H IH]; [reflexivity|]. cbn.
  apply N.eqb_neq in Hc. rewrite Hc, IH. auto.
Qed.
Lemma rev_crlf s : rev (s ++ CRLF) = ascii_of_N 10 :: ascii_of_N 13 :: rev s.
Proof. rewrite rev_app_distr. reflexivity. Qed.
Lemma readline_line b s r : multi_line b = false -> no_nl s ->
  readline [s ++ CRLF ++ r] b = RL_ok (s ++ CRLF) [r].
Proof.
  intros Hm Hn. unfold readline. rewrite Hm. cbn [read_bytes]. rewrite split_nl_line by auto.
  rewrite rev_crlf. reflexivity.
Qed.
Lemma denotes_nonl ds n : denotes ds n -> no_nl ds.
Proof.
  intros (l & _ & HF & H). assert (Hl : no_nl l).
  { eapply List.Forall_impl; [|exact HF]. unfold is_digit. intros c Hc. lia. }
  destruct H as [[[->| ->] _]|[-> _]]; auto; constructor; auto; vm_compute; discriminate.
Qed.
Lemma denotes_parse ds n : denotes ds n -> fits64 n -> parse_int ds = (n, None).
Proof.
  intros H1 H2. assert (E : atoi ds = Some n) by (apply atoi_iff; auto). unfold atoi in E.
  destruct (parse_int ds) as [m [|]]; congruence.
Qed.
Lemma header_body t ds : take (length (B t ++ ds ++ CRLF) - 3) (drop 1 (B t ++ ds ++ CRLF)) = ds \/ length (B t) <> 1%nat.
Proof.
  destruct (decide (length (B t) = 1)%nat) as [E|]; auto. left.
  destruct (B t) as [|c [|]]; cbn in E; try lia. cbn. rewrite app_length. cbn. rewrite drop_0.
  replace (length ds + 2 - 2)%nat with (length ds) by lia. rewrite take_app. auto.
Qed.

Definition at_top (b : rbuf) : Prop := b = empty_buf.
Definition in_arr (n : Z) (acc : list rdata) : rbuf := mkBuf 0 false n true acc.
Lemma in_arr_ok n acc : buf_ok (in_arr n acc).
Proof. intros ?; discriminate. Qed.
Lemma empty_ok : buf_ok empty_buf.
Proof. intros ?; discriminate. Qed.

(** What one more element does to the parser inside an array. *)
Definition after_elem (n : Z) (acc : list rdata) (d : rdata) (s : bytes) : list event * ending :=
  if zlen (acc ++ [d]) =? n then pre [EvData (RArr (Some (acc ++ [d])))] (Pr empty_buf s)
  else Pr (in_arr n (acc ++ [d])) s.

Lemma pre_nil r : pre [] r = r.
Proof. destruct r; auto. Qed.
Lemma pre_pre a b r : pre a (pre b r) = pre (a ++ b) r.
Proof. unfold pre. cbn. rewrite app_assoc. auto. Qed.

Lemma fits_m1 : fits64 (-1).
Proof. unfold fits64. lia. Qed.
Lemma Pr_null n acc ds r : denotes ds (-1) ->
  Pr (in_arr n acc) (B "$" ++ ds ++ CRLF ++ r) = after_elem n acc (RBulk None) r.
Proof.
  intros Hd. rewrite Pr_unfold by apply in_arr_ok.
  replace (B "$" ++ ds ++ CRLF ++ r) with ((B "$" ++ ds) ++ CRLF ++ r) by (rewrite <- app_assoc; auto).
  unfold pstep. rewrite readline_line; [|auto|constructor; [vm_compute; discriminate|eapply denotes_nonl; eauto]].
  cbn [multi_line in_arr]. rewrite <- app_assoc. cbn [B list_ascii_of_string app].
  change ((code "$" =? 36)%N) with true. cbn match. unfold parse_bulk_header.
  destruct (header_body "$" ds) as [E|E]; [|cbn in E; lia].
  change ("$"%char :: ds ++ CRLF) with (B "$" ++ ds ++ CRLF).
  rewrite E, (denotes_parse ds (-1)) by auto using fits_m1.
  change (-1 <? -1) with false. cbv iota. cbn [string_len]. change (-1 =? -1) with true. cbv iota.
  unfold deliver, after_elem. cbn [in_arr in_array array_data array_len multi_line string_len].
  destruct (zlen (acc ++ [RBulk None]) =? n); cbn; rewrite ?app_nil_r, ?pre_nil; auto.
Qed.
Lemma ends_crlf_ok s : ends_crlf (s ++ CRLF) = true.
Proof. unfold ends_crlf. rewrite rev_crlf. reflexivity. Qed.
Lemma take_crlf s : take (length (s ++ CRLF) - 2) (s ++ CRLF) = s.
Proof. rewrite app_length. cbn. replace (length s + 2 - 2)%nat with (length s) by lia. apply take_app. Qed.
Lemma wrap_len (s : bytes) : zlen s + 2 <= 2 ^ 48 -> wrap64 (zlen s + 2) = zlen s + 2.
Proof. intros H. unfold zlen in *. unfold wrap64. rewrite Z.mod_small by lia. lia. Qed.
Lemma make_len (s : bytes) : zlen s + 2 <= 2 ^ 48 -> make_ok (zlen s + 2) 1 = true.
Proof. intros H. unfold make_ok, zlen in *. apply andb_true_iff. split; apply Z.leb_le; lia. Qed.
(** After the header of a bulk string. *)
Definition in_bulk (len n : Z) (acc : list rdata) : rbuf := mkBuf len true n true acc.
Lemma in_bulk_ok (s : bytes) n acc : zlen s + 2 <= 2 ^ 48 -> buf_ok (in_bulk (zlen s) n acc).
Proof. intros H _. cbn. unfold zlen, max_int in *. lia. Qed.
Lemma Pr_bulk_header n acc ds (s r : bytes) : denotes ds (zlen s) -> zlen s + 2 <= 2 ^ 48 ->
  Pr (in_arr n acc) (B "$" ++ ds ++ CRLF ++ r) = Pr (in_bulk (zlen s) n acc) r.
Proof.
  intros Hd Hl. rewrite Pr_unfold by apply in_arr_ok.
  replace (B "$" ++ ds ++ CRLF ++ r) with ((B "$" ++ ds) ++ CRLF ++ r) by (rewrite <- app_assoc; auto).
  unfold pstep. rewrite readline_line; [|auto|constructor; [vm_compute; discriminate|eapply denotes_nonl; eauto]].
  cbn [multi_line in_arr]. rewrite <- app_assoc. cbn [B list_ascii_of_string app].
  change ((code "$" =? 36)%N) with true. cbn match. unfold parse_bulk_header.
  destruct (header_body "$" ds) as [E|E]; [|cbn in E; lia].
  change ("$"%char :: ds ++ CRLF) with (B "$" ++ ds ++ CRLF).
  assert (Hz : 0 <= zlen s) by (unfold zlen; lia).
  rewrite E, (denotes_parse ds (zlen s)) by (auto; unfold fits64; lia).
  destruct (Z.ltb_spec (zlen s) (-1)); [lia|]. cbn [string_len].
  destruct (Z.eqb_spec (zlen s) (-1)); [lia|]. destruct (Z.ltb_spec (-1) (zlen s)); [|lia].
  cbn. rewrite ?app_nil_r, ?pre_nil. auto.
Qed.
Lemma Pr_bulk_body n acc (s r : bytes) : zlen s + 2 <= 2 ^ 48 ->
  Pr (in_bulk (zlen s) n acc) (s ++ CRLF ++ r) = after_elem n acc (RBulk (Some s)) r.
Proof.
  intros Hl. rewrite Pr_unfold by (apply in_bulk_ok; auto). unfold pstep, readline.
  cbn [multi_line in_bulk string_len]. rewrite wrap_len, make_len by auto.
  assert (Hn : Z.to_nat (zlen s + 2) = length (s ++ CRLF)) by (rewrite app_length; unfold zlen; cbn; lia).
  unfold read_full. pose proof (read_full_spec [s ++ CRLF ++ r] (Z.to_nat (zlen s + 2)) [] ltac:(unfold zlen; lia)) as H.
  cbn [concat] in H. rewrite app_nil_r in H. rewrite (proj2 (Nat.leb_le _ _)) in H.
  2:{ rewrite Hn, app_assoc, (app_length _ r). lia. }
  destruct H as (st & H & Hst). rewrite Hn, app_assoc, take_app in H. rewrite Hn, app_assoc, drop_app in Hst.
  rewrite Hn, app_assoc. unfold bytes, stream in *. rewrite H. cbn [app].
  rewrite ends_crlf_ok, take_crlf.
  unfold deliver, after_elem. cbn [in_bulk in_array array_data array_len multi_line string_len].
  destruct (zlen (acc ++ [RBulk (Some s)]) =? n); subst r; cbn; rewrite ?pre_nil; auto.
Qed.
Lemma Pr_arg n acc v f r : arg_frame v f -> Pr (in_arr n acc) (f ++ r) = after_elem n acc (RBulk v) r.
Proof.
  intros H. inversion H; subst; rewrite <- !app_assoc.
  - apply Pr_null; auto.
  - erewrite Pr_bulk_header by eauto. apply Pr_bulk_body; auto.
Qed.
Definition cmd_event (c : command) : event := EvData (RArr (Some (map RBulk c))).
Lemma Pr_args n vs : forall bs acc r, Forall2 arg_frame vs bs -> vs <> [] -> zlen acc + zlen vs = n ->
  Pr (in_arr n acc) (concat bs ++ r) = pre [EvData (RArr (Some (acc ++ map RBulk vs)))] (Pr empty_buf r).
Proof.
  induction vs as [|v vs IH]; intros bs acc r HF Hne Hn; [congruence|]. inversion HF; subst. cbn [concat].
  rewrite <- app_assoc, (Pr_arg _ _ v) by auto. unfold after_elem.
  assert (E : zlen (acc ++ [RBulk v]) = zlen acc + 1) by (unfold zlen; rewrite app_length; cbn; lia).
  rewrite E. destruct vs as [|v' vs].
  - inversion H3; subst. change (zlen [v]) with 1. rewrite Z.eqb_refl. cbn. auto.
  - rewrite (proj2 (Z.eqb_neq _ _)) by (unfold zlen; cbn [length]; lia).
    rewrite IH; [|auto|discriminate|].
    + cbn [map]. rewrite <- app_assoc. auto.
    + rewrite E. unfold zlen; cbn [length]; lia.
Qed.
Lemma Pr_arr_header (c : command) ds r : c <> [] -> denotes ds (zlen c) -> fits64 (zlen c) ->
  Pr empty_buf (B "*" ++ ds ++ CRLF ++ r) = Pr (in_arr (zlen c) []) r.
Proof.
  intros Hc Hd Hf. rewrite Pr_unfold by apply empty_ok.
  replace (B "*" ++ ds ++ CRLF ++ r) with ((B "*" ++ ds) ++ CRLF ++ r) by (rewrite <- app_assoc; auto).
  unfold pstep. rewrite readline_line; [|auto|constructor; [vm_compute; discriminate|eapply denotes_nonl; eauto]].
  cbn [multi_line empty_buf]. rewrite <- app_assoc. cbn [B list_ascii_of_string app].
  change ((code "*" =? 36)%N) with false. change ((code "*" =? 42)%N) with true. cbn match. unfold parse_array_header.
  destruct (header_body "*" ds) as [E|E]; [|cbn in E; lia].
  change ("*"%char :: ds ++ CRLF) with (B "*" ++ ds ++ CRLF).
  assert (Hz : 0 < zlen c) by (destruct c; [congruence|unfold zlen; cbn; lia]).
  rewrite E, (denotes_parse ds (zlen c)) by auto.
  destruct (Z.ltb_spec (zlen c) (-1)); [lia|]. destruct (Z.ltb_spec 0 (zlen c)); [|lia]. cbn [array_len].
  rewrite !(proj2 (Z.eqb_neq _ _)) by lia. cbn. rewrite ?app_nil_r, ?pre_nil. auto.
Qed.
Lemma Pr_cmd c f r : cmd_frame c f -> Pr empty_buf (f ++ r) = pre [cmd_event c] (Pr empty_buf r).
Proof.
  intros H. inversion H; subst. rewrite <- !app_assoc. rewrite (Pr_arr_header c) by auto.
  rewrite (Pr_args _ c) by (auto; unfold zlen; cbn; lia). auto.
Qed.
Lemma Pr_eof b : multi_line b = false -> buf_ok b -> Pr b [] = ([EvErr EEof], Closed).
Proof. intros Hm Hb. rewrite Pr_unfold by auto. unfold pstep, readline. rewrite Hm. reflexivity. Qed.
Lemma Pr_sends cs s r : sends cs s -> Pr empty_buf (s ++ r) = pre (map cmd_event cs) (Pr empty_buf r).
Proof.
  induction 1 as [|c cs f s Hc Hs IH]; cbn [app map]; [rewrite pre_nil; auto|].
  rewrite <- app_assoc, (Pr_cmd c) by auto. rewrite IH, pre_pre. auto.
Qed.

Theorem pipeline_exact cs st : sends cs (concat st) ->
  parse_stream st = (map cmd_event cs ++ [EvErr EEof], Closed).
Proof.
  intros H. rewrite parse_stream_Pr, <- (app_nil_r (concat st)), (Pr_sends cs) by auto.
  rewrite Pr_eof by (auto using empty_ok). reflexivity.
Qed.
Theorem cmd_event_command c : to_command (map RBulk c) = Some c.
Proof. induction c as [|v c IH]; cbn; [auto|]. rewrite IH. auto. Qed.

(** ** Truncated streams *)
Definition cut_end (r : list event * ending) : Prop :=
  r = ([EvErr EEof], Closed) \/ r = ([EvErr EUnexpectedEof; EvErr EEof], Closed).
Lemma cut_app p a b : cut p (a ++ b) -> cut p a \/ exists p', p = a ++ p' /\ cut p' b.
Proof.
  intros (q & Hq & E). destruct (decide (length p < length a)%nat) as [Hl|Hl].
  - left. exists (drop (length p) a).
    assert (Ha : a = p ++ drop (length p) a).
    { rewrite <- (take_drop (length p) a) at 1. f_equal.
      apply (f_equal (take (length p))) in E. rewrite take_app, take_app_le in E by lia. auto. }
    split; auto. intros Hd. apply (f_equal length) in Hd. rewrite drop_length in Hd. cbn in Hd. lia.
  - right. exists (drop (length a) p).
    assert (Hp : p = a ++ drop (length a) p).
    { rewrite <- (take_drop (length a) p) at 1. f_equal.
      apply (f_equal (take (length a))) in E. rewrite take_app, take_app_le in E by lia. auto. }
    split; auto. exists q. split; auto. rewrite Hp in E. rewrite <- app_assoc in E. apply app_inv_head in E. auto.
Qed.
Lemma cut_nl p s : cut p (s ++ CRLF) -> no_nl s -> no_nl p.
Proof.
  intros (q & Hq & E) Hs. destruct (list_eq_dec ascii_dec q []) as [|_]; [congruence|].
  destruct (exists_last Hq) as (q' & c & ->).
  assert (E2 : s ++ [ascii_of_N 13] = p ++ q').
  { rewrite app_assoc in E. change CRLF with ([ascii_of_N 13] ++ [ascii_of_N 10]) in E.
    rewrite app_assoc in E. apply app_inj_tail in E as [E _]. auto. }
  assert (Hx : no_nl (s ++ [ascii_of_N 13])) by (apply Forall_app; split; auto; repeat constructor; vm_compute; discriminate).
  rewrite E2 in Hx. apply Forall_app in Hx as [? _]; auto.
Qed.
Lemma Pr_nonl b p : buf_ok b -> multi_line b = false -> no_nl p -> Pr b p = ([EvErr EEof], Closed).
Proof.
  intros Hb Hm Hn. rewrite Pr_unfold by auto. unfold pstep, readline. rewrite Hm. cbn [read_bytes].
  rewrite split_nl_none by auto. reflexivity.
Qed.
Lemma Pr_cut_line b p s : buf_ok b -> multi_line b = false -> no_nl s -> cut p (s ++ CRLF) -> cut_end (Pr b p).
Proof. intros. left. apply Pr_nonl; auto. eapply cut_nl; eauto. Qed.
Lemma dollar_nonl t ds n : denotes ds n -> length (B t) = 1%nat -> no_nl (B t) -> no_nl (B t ++ ds).
Proof. intros. apply Forall_app. split; auto. eapply denotes_nonl; eauto. Qed.
Lemma Pr_cut_body n acc (s p : bytes) : zlen s + 2 <= 2 ^ 48 -> cut p (s ++ CRLF) ->
  cut_end (Pr (in_bulk (zlen s) n acc) p).
Proof.
  intros Hl (q & Hq & E). rewrite Pr_unfold by (apply in_bulk_ok; auto). unfold pstep, readline.
  cbn [multi_line in_bulk string_len]. rewrite wrap_len, make_len by auto.
  assert (Hn : Z.to_nat (zlen s + 2) = length (s ++ CRLF)) by (rewrite app_length; unfold zlen; cbn; lia).
  unfold read_full. pose proof (read_full_spec [p] (Z.to_nat (zlen s + 2)) [] ltac:(unfold zlen; lia)) as H.
  cbn [concat] in H. rewrite app_nil_r in H. rewrite (proj2 (Nat.leb_gt _ _)) in H.
  2:{ rewrite Hn, E, app_length. destruct q; [congruence|cbn; lia]. }
  rewrite H. cbn [app]. destruct p as [|c p]; cbn [app].
  - left. auto.
  - right. cbn [concat]. rewrite Pr_eof by (auto using empty_ok). auto.
Qed.
Lemma Pr_cut_arg n acc v f p : arg_frame v f -> cut p f -> cut_end (Pr (in_arr n acc) p).
Proof.
  intros H Hc. inversion H; subst.
  - rewrite app_assoc in Hc. eapply Pr_cut_line; [apply in_arr_ok|auto| |exact Hc].
    eapply dollar_nonl; eauto. repeat constructor; vm_compute; discriminate.
  - rewrite !app_assoc in Hc. rewrite <- app_assoc in Hc. apply cut_app in Hc as [Hc|(p' & -> & Hc)].
    + eapply Pr_cut_line; [apply in_arr_ok|auto| |exact Hc].
      eapply dollar_nonl; eauto. repeat constructor; vm_compute; discriminate.
    + rewrite <- !app_assoc. erewrite Pr_bulk_header by eauto. apply Pr_cut_body; auto.
Qed.
Lemma cut_nil p : ~ cut p [].
Proof. intros (q & Hq & E). symmetry in E. apply app_eq_nil in E as [_ ?]. auto. Qed.
Lemma Pr_cut_args n vs : forall bs acc p, Forall2 arg_frame vs bs -> vs <> [] -> zlen acc + zlen vs = n ->
  cut p (concat bs) -> cut_end (Pr (in_arr n acc) p).
Proof.
  induction vs as [|v vs IH]; intros bs acc p HF Hne Hn Hc; [congruence|]. inversion HF; subst. cbn [concat] in Hc.
  apply cut_app in Hc as [Hc|(p' & -> & Hc)]; [eapply Pr_cut_arg; eauto|].
  rewrite (Pr_arg _ _ v) by auto. unfold after_elem.
  assert (E : zlen (acc ++ [RBulk v]) = zlen acc + 1) by (unfold zlen; rewrite app_length; cbn; lia).
  rewrite E. destruct vs as [|v' vs].
  - inversion H3; subst. destruct (cut_nil p'); auto.
  - rewrite (proj2 (Z.eqb_neq _ _)) by (unfold zlen; cbn [length]; lia).
    eapply IH; [eauto|discriminate| |exact Hc]. rewrite E. unfold zlen; cbn [length]; lia.
Qed.
Lemma Pr_cut_cmd c f p : cmd_frame c f -> cut p f -> cut_end (Pr empty_buf p).
Proof.
  intros H Hc. inversion H; subst.
  rewrite !app_assoc in Hc. apply cut_app in Hc as [Hc|(p' & -> & Hc)].
  - eapply Pr_cut_line; [apply empty_ok|auto| |exact Hc].
    eapply dollar_nonl; eauto. repeat constructor; vm_compute; discriminate.
  - rewrite <- !app_assoc. rewrite (Pr_arr_header c) by auto. eapply Pr_cut_args; eauto.
Qed.

(** Every prefix of a pipeline is a pipeline followed by a proper prefix of the next command. *)
Lemma sends_cut cs s p q : sends cs s -> s = p ++ q ->
  exists cs1 cs2 s1 p1, cs = cs1 ++ cs2 /\ sends cs1 s1 /\ p = s1 ++ p1 /\
    (p1 = [] \/ exists c cs3 f, cs2 = c :: cs3 /\ cmd_frame c f /\ cut p1 f).
Proof.
  intros H. revert p q. induction H as [|c cs f s Hc Hs IH]; intros p q E.
  - symmetry in E. apply app_eq_nil in E as [-> ->]. exists [], [], [], []. repeat split; auto. constructor.
  - destruct (list_eq_dec ascii_dec q []) as [->|Hq].
    + rewrite app_nil_r in E. exists (c :: cs), [], (f ++ s), []. rewrite !app_nil_r. repeat split; auto. constructor; auto.
    + assert (Hcut : cut p (f ++ s)) by (exists q; auto).
      apply cut_app in Hcut as [Hcut|(p' & -> & (q' & Hq' & E'))].
      * exists [], (c :: cs), [], p. repeat split; auto; [constructor|]. right. exists c, cs, f. auto.
      * destruct (IH p' q' E') as (cs1 & cs2 & s1 & p1 & -> & H1 & -> & H2).
        exists (c :: cs1), cs2, (f ++ s1), p1. rewrite <- app_assoc. repeat split; auto. constructor; auto.
Qed.
Theorem truncated cs p q st : sends cs (p ++ q) -> concat st = p ->
  exists cs1 cs2 s1 p1, cs = cs1 ++ cs2 /\ sends cs1 s1 /\ p = s1 ++ p1 /\
    (p1 = [] \/ exists c cs3 f, cs2 = c :: cs3 /\ cmd_frame c f /\ cut p1 f) /\
    exists evs, parse_stream st = (map cmd_event cs1 ++ evs, Closed) /\
      (evs = [EvErr EEof] \/ evs = [EvErr EUnexpectedEof; EvErr EEof]).
Proof.
  intros H E. destruct (sends_cut cs _ p q H eq_refl) as (cs1 & cs2 & s1 & p1 & E1 & H1 & E2 & H2).
  exists cs1, cs2, s1, p1. repeat split; auto. rewrite parse_stream_Pr, E, E2, (Pr_sends cs1) by auto.
  assert (Hc : cut_end (Pr empty_buf p1)).
  { destruct H2 as [->|(c & cs3 & f & _ & Hf & Hc)]; [|eapply Pr_cut_cmd; eauto].
    left. apply Pr_eof; auto using empty_ok. }
  destruct Hc as [->| ->]; unfold pre; cbn; eauto.
Qed.
