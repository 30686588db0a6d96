(** Proofs about memdb/strings.go. *)
From Verif Require Import WpTac.

Ltac start Hn := intros now d HI Hpre; exec_cmd Hn.

(** ** pick / slice *)
Lemma pick_from_none {A} (l : list A) i p :
  (forall j, i <= j < i + zlen l -> p j = false) -> pick_from i p l = [].
Proof.
  revert i. induction l as [|x l IH]; intros i H; simpl; auto.
  unfold zlen in *; simpl in *. rewrite H by lia. apply IH. intros; apply H; lia.
Qed.
Lemma pick_from_all {A} (l : list A) i p :
  (forall j, i <= j < i + zlen l -> p j = true) -> pick_from i p l = l.
Proof.
  revert i. induction l as [|x l IH]; intros i H; simpl; auto.
  unfold zlen in *; simpl in *. rewrite H by lia. f_equal. apply IH. intros; apply H; lia.
Qed.
Lemma pick_from_app {A} (l1 l2 : list A) i p :
  pick_from i p (l1 ++ l2) = pick_from i p l1 ++ pick_from (i + zlen l1) p l2.
Proof.
  revert i. induction l1 as [|x l1 IH]; intros i; simpl.
  - unfold zlen; simpl. rewrite Z.add_0_r; auto.
  - rewrite IH. unfold zlen; simpl. replace (i + 1 + Z.of_nat (length l1)) with (i + Z.of_nat (S (length l1))) by lia.
    destruct (p i); auto.
Qed.
(** Positions lo..hi (clamped) are take/drop. *)
Lemma pick_interval {A} (l : list A) lo hi :
  pick (fun i => (lo <=? i) && (i <=? hi)) l =
  take (Z.to_nat (Z.min hi (zlen l - 1) - Z.max lo 0 + 1)) (drop (Z.to_nat (Z.max lo 0)) l).
Proof.
  unfold pick.
  set (a := Z.to_nat (Z.max lo 0)). set (n := Z.to_nat (Z.min hi (zlen l - 1) - Z.max lo 0 + 1)).
  rewrite <- (take_drop a l) at 1. rewrite <- (take_drop n (drop a l)) at 1.
  rewrite !pick_from_app.
  assert (Hlen : zlen l = Z.of_nat (length l)) by auto.
  assert (Hta : zlen (take a l) = Z.min (Z.of_nat a) (zlen l)).
  { unfold zlen at 1. rewrite take_length. unfold zlen. lia. }
  assert (Htn : zlen (take n (drop a l)) = Z.min (Z.of_nat n) (zlen l - Z.min (Z.of_nat a) (zlen l))).
  { unfold zlen at 1. rewrite take_length, drop_length. unfold zlen. lia. }
  assert (Hdn : zlen (drop n (drop a l)) =
     zlen l - Z.min (Z.of_nat a) (zlen l) - Z.min (Z.of_nat n) (zlen l - Z.min (Z.of_nat a) (zlen l))).
  { unfold zlen at 1. rewrite !drop_length. unfold zlen. lia. }
  rewrite (pick_from_none (take a l)), (pick_from_all (take n (drop a l))), (pick_from_none (drop n _)).
  - rewrite app_nil_r; auto.
  - intros j Hj. apply andb_false_iff. rewrite !Z.leb_gt. lia.
  - intros j Hj. apply andb_true_iff. rewrite !Z.leb_le. lia.
  - intros j Hj. apply andb_false_iff. rewrite !Z.leb_gt. lia.
Qed.

Lemma wrap64_small z : min_int <= z <= max_int -> wrap64 z = z.
Proof. unfold wrap64, min_int, max_int. intros. rewrite Z.mod_small; lia. Qed.
Lemma wrap64_range z : min_int <= wrap64 z <= max_int.
Proof.
  unfold wrap64, min_int, max_int. pose proof (Z.mod_pos_bound (z + 2^63) (2^64)). lia.
Qed.

(** [atoi] only returns 64-bit integers. *)
Lemma parse_uint_loop_range s n v e :
  0 <= n <= max_u64 -> parse_uint_loop s n = (v, e) -> 0 <= v <= max_u64.
Proof.
  assert (Hm : 0 <= max_u64) by (unfold max_u64; lia).
  revert n. induction s as [|c s IH]; intros n Hn; cbn [parse_uint_loop].
  - intros [= <- <-]. auto.
  - destruct (digit c) as [dg|] eqn:Hd.
    + unfold digit in Hd. set (x := Z.of_N (code c)) in *.
      destruct ((48 <=? x) && (x <=? 57)) eqn:Hx; [|discriminate].
      injection Hd as <-. apply andb_true_iff in Hx as [H1 H2]. apply Z.leb_le in H1, H2.
      destruct (cutoff <=? n); [intros [= <- <-]; auto; lia|].
      destruct (Z.ltb_spec max_u64 (n * 10 + (x - 48))); [intros [= <- <-]; lia|].
      apply IH. lia.
    + intros [= <- <-]. lia.
Qed.
Lemma parse_int_range s v e : parse_int s = (v, e) -> min_int <= v <= max_int.
Proof.
  assert (Hsg : forall neg s, parse_signed neg s = (v, e) -> min_int <= v <= max_int).
  { clear s. intros neg s. unfold parse_signed. destruct (parse_uint s) as [un o] eqn:E.
    assert (Hun : 0 <= un <= max_u64).
    { unfold parse_uint in E. destruct s.
      - injection E as <- <-. unfold max_u64; lia.
      - eapply parse_uint_loop_range; [|exact E]. unfold max_u64; lia. }
    unfold min_int, max_int.
    assert (Hm : match o with Some ErrSyntax => (0, Some ErrSyntax) | _ =>
       if negb neg && (2 ^ 63 <=? un) then (2 ^ 63 - 1, Some ErrRange)
      else if neg && (2 ^ 63 <? un) then (- 2 ^ 63, Some ErrRange)
      else (if neg then - un else un, None) end = (v, e) -> - 2 ^ 63 <= v <= 2 ^ 63 - 1).
    { destruct (Z.leb_spec (2^63) un), (Z.ltb_spec (2^63) un), neg; simpl;
        destruct o as [[]|]; intros [= <- <-]; lia. }
    destruct o as [[]|]; exact Hm. }
  unfold parse_int. destruct s as [|c s].
  - intros [= <- <-]. unfold min_int, max_int; lia.
  - destruct (code c =? 43)%N; [apply Hsg|]. destruct (code c =? 45)%N; apply Hsg.
Qed.
Lemma atoi_range s n : atoi s = Some n -> min_int <= n <= max_int.
Proof.
  unfold atoi. destruct (parse_int s) as [v [e|]] eqn:E; [discriminate|].
  intros [= <-]. eapply parse_int_range; eauto.
Qed.

Section WithParams.
Context {P : Setup}.

Lemma get_ok n k : named n "get" -> implements [n; k] (single_fun (str k) get_spec).
Proof.
  intros Hn. apply impl_single_fun. start Hn. unfold get_string.
  purge_k. destruct b.
  - rewrite (Hb eq_refl) in *. wps. fin.
  - ent; wps; [destruct v|]; wps; fin.
Qed.

Lemma strlen_ok n k : named n "strlen" -> implements [n; k] (single_fun (str k) strlen_spec).
Proof.
  intros Hn. apply impl_single_fun. start Hn. unfold strlen_string.
  purge_k. ent; wps; [destruct v|]; wps; fin.
Qed.


Lemma get_range_slice s a b :
  zlen s <= max_int -> min_int <= a <= max_int -> min_int <= b < max_int ->
  get_range (Some s) a b = RBulk (Some (slice s a b)).
Proof.
  intros Hs Ha Hb. unfold get_range, slice, from_end. cbn [str].
  rewrite pick_interval.
  assert (Hz : 0 <= zlen s) by (unfold zlen; lia).
  unfold min_int, max_int in *.
  set (L := zlen s) in *.
  replace (if a <? 0 then wrap64 (L + a) else a) with (if a <? 0 then L + a else a)
    by (destruct (Z.ltb_spec a 0); auto; rewrite wrap64_small; unfold min_int, max_int; auto; lia).
  replace (if b <? 0 then wrap64 (L + b) else b) with (if b <? 0 then L + b else b)
    by (destruct (Z.ltb_spec b 0); auto; rewrite wrap64_small; unfold min_int, max_int; auto; lia).
  set (a' := if a <? 0 then L + a else a). set (b' := if b <? 0 then L + b else b).
  assert (- 2 ^ 63 <= b' < 2^63 - 1) by (unfold b'; destruct (Z.ltb_spec b 0); lia).
  rewrite wrap64_small by (unfold min_int, max_int; lia).
  destruct ((b' + 1 <? a') || (L <=? a') || (b' + 1 <? 0)) eqn:E.
  - do 2 f_equal.
    apply orb_true_iff in E as [E|E]; [apply orb_true_iff in E as [E|E]|];
      rewrite ?Z.ltb_lt, ?Z.leb_le in E.
    + replace (Z.to_nat _) with 0%nat by lia. auto.
    + rewrite drop_ge; [rewrite take_nil; auto|]. unfold L, zlen in *. lia.
    + replace (Z.to_nat _) with 0%nat by lia. auto.
  - apply orb_false_iff in E as [E E3]. apply orb_false_iff in E as [E1 E2].
    rewrite Z.ltb_ge, ?Z.leb_gt in *.
    do 2 f_equal.
    destruct (Z.ltb_spec a' 0), (Z.ltb_spec L (b' + 1)); f_equal; try (f_equal; lia); lia.
Qed.

Lemma getrange_ok n k a b i j :
  named n "getrange" -> atoi (str a) = Some i -> atoi (str b) = Some j -> j <> max_int ->
  implements_when (str_short (str k)) [n; k; a; b] (single (str k) (getrange_spec i j)).
Proof.
  intros Hn Ha Hb' Hj. apply impl_single. start Hn. unfold getrange_string.
  purge_k. rewrite Ha, Hb'. unfold getrange_spec. destruct b0.
  - rewrite (Hb eq_refl) in *. wps. fin. split; auto.
  - ent; wps; [destruct v|]; wps; fin; split; auto.
    destruct v.
    + apply get_range_slice; eauto using atoi_range.
      * apply (Hpre (Some b0) dl); auto.
      * pose proof (atoi_range _ _ Hb'). lia.
    + unfold get_range. destruct (_ || _); auto.
Qed.

Lemma getrange_bad n k a b :
  named n "getrange" -> atoi (str a) = None \/ atoi (str b) = None ->
  implements_when (fun now S => S (str k) <> None) [n; k; a; b]
    (single_fun (str k) (fun _ e => (err_int, e))).
Proof.
  intros Hn Hab. apply impl_single_fun. start Hn. unfold getrange_string.
  purge_k. destruct b0.
  - elim Hpre; auto.
  - destruct Hab as [-> | ->]; [|destruct (atoi (str a))]; wps; fin.
Qed.

Lemma go_append_str v a : str (go_append v a) = str v ++ a.
Proof. destruct v, a; simpl; auto. Qed.

Lemma set_range_ow old o v :
  0 <= o -> o - zlen (str old) <= 2 ^ 48 ->
  exists nv, set_range old o v = Some nv /\ str nv = overwrite (str old) (Z.to_nat o) v.
Proof.
  intros Ho Hm. unfold set_range, overwrite, make_ok.
  destruct (Z.ltb_spec (zlen (str old)) o) as [H|H].
  - replace ((0 <=? o - zlen (str old)) && ((o - zlen (str old)) * 1 <=? 2 ^ 48)) with true.
    2:{ symmetry. apply andb_true_iff. rewrite !Z.leb_le. lia. }
    eexists. split; [reflexivity|]. rewrite !go_append_str.
    f_equal. unfold zlen in *.
    replace (Z.to_nat (o - Z.of_nat (length (str old)))) with (Z.to_nat o - length (str old))%nat by lia.
    rewrite take_ge; auto. rewrite app_length, replicate_length. lia.
  - eexists. split; [reflexivity|]. rewrite go_append_str. f_equal. unfold zlen in *.
    replace (Z.to_nat o - length (str old))%nat with 0%nat by lia. simpl. rewrite app_nil_r.
    destruct old; simpl; [auto|]. rewrite take_nil; auto.
Qed.


Lemma setrange_ok n k a v o :
  named n "setrange" -> atoi (str a) = Some o -> 0 <= o ->
  implements_when (gap_ok (str k) o) [n; k; a; v]
    (single (str k) (setrange_spec overwrite o (str v))).
Proof.
  intros Hn Ha Ho. apply impl_single. start Hn. unfold setrange_string.
  purge_k. rewrite Ha. destruct (Z.ltb_spec o 0); [lia|].
  unfold gap_ok in Hpre. unfold setrange_spec.
  ent; wps; [destruct v0|]; wps; try (fin; split; auto; fail).
  - destruct (set_range_ow v0 o (str v)) as (nv & -> & Hnv); auto.
    wps. fin. exists nv. auto.
  - destruct (set_range_ow (Some []) o (str v)) as (nv & -> & Hnv); auto.
    wps. fin. exists nv. auto.
Qed.

Lemma setrange_bad n k a v :
  named n "setrange" -> (forall o, atoi (str a) = Some o -> o < 0) ->
  implements [n; k; a; v]
    (single_fun (str k) (fun _ e => (if decide (atoi (str a) = None) then err_int else err_offset, e))).
Proof.
  intros Hn Ha. apply impl_single_fun. start Hn. unfold setrange_string.
  purge_k. destruct (atoi (str a)) as [o|].
  - specialize (Ha o eq_refl). destruct (Z.ltb_spec o 0); [|lia]. wps. fin.
  - wps. fin.
Qed.

Lemma append_ok n k a : named n "append" ->
  implements [n; k; a] (single (str k) (append_spec a)).
Proof.
  intros Hn. apply impl_single. start Hn. unfold append_string, append_spec.
  purge_k. ent; wps; [destruct v|]; wps; fin; eauto.
  exists (go_append v (str a)). rewrite go_append_str. auto.
Qed.

Lemma counter_wp now d k f m bad :
  Inv d -> (forall x, f x = x + m) ->
  wp (eq now) d (delete_expired_key k ;;; counter_body k f bad) (fun out =>
     exists r d', out = Done r d' /\ Inv d' /\ (r, raw d' k) = counter_spec m bad now (view now d k) /\
         forall k', k' <> k -> raw d' k' = raw d k').
Proof.
  intros HI Hf. purge_k. unfold counter_body, counter_spec.
  ent; wps; [destruct v|]; wps; try (fin; fail). cbn [on_str].
  destruct (atoi (str v)); [rewrite Hf|]; wps; fin.
Qed.

Lemma incr_ok n k : named n "incr" ->
  implements [n; k] (single_fun (str k) (counter_spec 1 err_int)).
Proof. intros Hn. apply impl_single_fun. start Hn. apply counter_wp; auto. Qed.
Lemma decr_ok n k : named n "decr" ->
  implements [n; k] (single_fun (str k) (counter_spec (-1) err_int)).
Proof. intros Hn. apply impl_single_fun. start Hn. apply counter_wp; auto. Qed.
Lemma incrby_ok n k a i : named n "incrby" -> atoi (str a) = Some i ->
  implements [n; k; a] (single_fun (str k) (counter_spec i err_int)).
Proof.
  intros Hn Ha. apply impl_single_fun. start Hn. unfold incrby_string. rewrite Ha.
  apply counter_wp; auto.
Qed.
Lemma decrby_ok n k a i : named n "decrby" -> atoi (str a) = Some i ->
  implements [n; k; a] (single_fun (str k) (counter_spec (- i) (RErr (B "(error) value is not an integer")))).
Proof.
  intros Hn Ha. apply impl_single_fun. start Hn. unfold decrby_string. rewrite Ha.
  apply counter_wp; auto.
Qed.
Lemma incrby_bad n k a : named n "incrby" \/ named n "decrby" -> atoi (str a) = None ->
  implements [n; k; a] (single_fun (str k) (fun _ e => (err_int, e))).
Proof.
  intros Hn Ha. apply impl_single_fun. intros now d HI _.
  destruct Hn as [Hn|Hn]; exec_cmd Hn; unfold incrby_string, decrby_string; rewrite Ha;
    purge_k; wps; fin.
Qed.

Lemma incrbyfloat_ok n k a i : named n "incrbyfloat" -> parse_float (str a) = Some i ->
  implements [n; k; a] (single_fun (str k) (incrbyfloat_spec i)).
Proof.
  intros Hn Ha. apply impl_single_fun. start Hn. unfold incrbyfloat_string. rewrite Ha.
  purge_k. unfold incrbyfloat_spec. ent; wps; [destruct v|]; wps; try (fin; fail). cbn [on_str].
  destruct (parse_float (str v)); wps; fin.
Qed.

Lemma setex_ok n k a v i : named n "setex" -> atoi (str a) = Some i ->
  implements [n; k; a; v] (single_fun (str k) (setex_spec i v)).
Proof.
  intros Hn Ha. apply impl_single_fun. start Hn. unfold setex_string. rewrite Ha.
  purge_k. wps. fin.
Qed.

Lemma setnx_ok n k v : named n "setnx" ->
  implements [n; k; v] (single_fun (str k) (setnx_spec v)).
Proof.
  intros Hn. apply impl_single_fun. start Hn. unfold setnx_string.
  purge_k. ent; wps; fin.
Qed.

End WithParams.

Lemma overwrite_keep_long old o v : (length old <= o + length v)%nat -> overwrite_keep old o v = overwrite old o v.
Proof. intros H. unfold overwrite_keep. rewrite drop_ge by lia. apply app_nil_r. Qed.
