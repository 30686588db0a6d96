(** The reference holds: strings. *)
From Verif Require Export RefBase Ints.

Section WithParams.
Context {P : Setup}.

Lemma get_meets n args now d : named n "get" -> Inv d -> meets now d (n :: args) (ref_of "get" args).
Proof.
  intros Hn HI. open_ref. destruct args as [|k [|? ?]]; try refuse Hn.
  apply meets_plain; [apply get_ok| |nodl Hn]; auto.
Qed.
Lemma strlen_meets n args now d : named n "strlen" -> Inv d -> meets now d (n :: args) (ref_of "strlen" args).
Proof.
  intros Hn HI. open_ref. destruct args as [|k [|? ?]]; try refuse Hn.
  apply meets_plain; [apply strlen_ok| |nodl Hn]; auto.
Qed.
Lemma incr_meets n args now d : named n "incr" -> Inv d -> meets now d (n :: args) (ref_of "incr" args).
Proof.
  intros Hn HI. open_ref. destruct args as [|k [|? ?]]; try refuse Hn.
  apply meets_plain; [apply incr_ok| |nodl Hn]; auto.
Qed.
Lemma decr_meets n args now d : named n "decr" -> Inv d -> meets now d (n :: args) (ref_of "decr" args).
Proof.
  intros Hn HI. open_ref. destruct args as [|k [|? ?]]; try refuse Hn.
  apply meets_plain; [apply decr_ok| |nodl Hn]; auto.
Qed.
Lemma setnx_meets n args now d : named n "setnx" -> Inv d -> meets now d (n :: args) (ref_of "setnx" args).
Proof.
  intros Hn HI. open_ref. destruct args as [|k [|v [|? ?]]]; try refuse Hn.
  apply meets_plain; [apply setnx_ok| |nodl Hn]; auto.
Qed.

(** Purge, and answer. *)
Lemma purge_say {A} now d k (f : bool -> prog A) r0 : Inv d -> (forall b, f b = Ret r0) ->
  wp (eq now) d (pbind (delete_expired_key k) f) (oks (fun r d' => r = r0 /\ sim now d' d)).
Proof. intros HI H. apply wp_purge_sim; auto. intros. rewrite H. split; auto. Qed.
(** Purge, and answer if the key was lapsed. *)
Lemma purge_gone {A} now d k (f : bool -> prog A) r0 : Inv d -> expired now d k = true -> f true = Ret r0 ->
  wp (eq now) d (pbind (delete_expired_key k) f) (oks (fun r d' => r = r0 /\ sim now d' d)).
Proof. intros HI He Hf. rewrite wp_purge, He, Hf. split; auto using sim_purge. Qed.
Lemma purge_live {A} now d k (f : bool -> prog A) Q : expired now d k = false -> wp (eq now) d (f false) Q ->
  wp (eq now) d (pbind (delete_expired_key k) f) Q.
Proof. intros He Hf. rewrite wp_purge, He. auto. Qed.

Lemma incrby_meets n args now d : named n "incrby" -> Inv d -> meets now d (n :: args) (ref_of "incrby" args).
Proof.
  intros Hn HI. open_ref. destruct args as [|k [|a [|? ?]]]; try refuse Hn.
  unfold int, int_or. destruct (atoi (str a)) as [i|] eqn:Ea.
  - apply meets_plain; [apply incrby_ok| |nodl Hn]; auto.
  - apply meets_say. exec_cmd Hn. unfold incrby_string. rewrite Ea. apply purge_say; auto.
Qed.
Lemma decrby_meets n args now d : named n "decrby" -> Inv d -> meets now d (n :: args) (ref_of "decrby" args).
Proof.
  intros Hn HI. open_ref. destruct args as [|k [|a [|? ?]]]; try refuse Hn.
  unfold int, int_or. destruct (atoi (str a)) as [i|] eqn:Ea.
  - apply meets_plain; [apply decrby_ok| |nodl Hn]; auto.
  - apply meets_say. exec_cmd Hn. unfold decrby_string. rewrite Ea. apply purge_say; auto.
Qed.
Lemma incrbyfloat_meets n args now d : named n "incrbyfloat" -> Inv d -> meets now d (n :: args) (ref_of "incrbyfloat" args).
Proof.
  intros Hn HI. open_ref. destruct args as [|k [|a [|? ?]]]; try refuse Hn.
  destruct (parse_float (str a)) as [i|] eqn:Ea.
  - apply meets_plain; [apply incrbyfloat_ok| |nodl Hn]; auto.
  - apply meets_say. exec_cmd Hn. unfold incrbyfloat_string. rewrite Ea. apply purge_say; auto.
Qed.
Lemma getrange_meets n args now d : named n "getrange" -> Inv d -> meets now d (n :: args) (ref_of "getrange" args).
Proof.
  intros Hn HI. open_ref. destruct args as [|k [|a [|b [|? ?]]]]; try refuse Hn.
  apply meets_gone; auto; intros He.
  { apply meets_say. exec_cmd Hn. unfold getrange_string. apply purge_gone; auto. }
  unfold both_ints, int, int_or. destruct (atoi (str a)) as [i|] eqn:Ea, (atoi (str b)) as [j|] eqn:Eb;
    try (apply meets_say; exec_cmd Hn; unfold getrange_string; apply purge_live; auto; rewrite ?Ea, ?Eb; split; auto using sim_refl).
  apply meets_on. exec_cmd Hn. unfold getrange_string. apply purge_live; auto. rewrite Ea, Eb. rewrite wp_lock_bare, wp_dict_get.
  rewrite view_notexpired by auto. pose proof (raw_dict d (str k) _ eq_refl) as HD.
  destruct (raw d (str k)) as [[[s|h|l|s] dl]|] eqn:Er; rewrite HD; cbn [wp oks]; rewrite Er; (split; [|auto]); (split; [auto|]); cbn; auto.
  pose proof (atoi_range _ _ Ea). pose proof (atoi_range _ _ Eb). destruct s as [s|].
  - intros Hlen. destruct (Z.eqb_spec j max_int) as [->|Hj].
    + unfold get_range. cbn [str]. change (wrap64 ((if max_int <? 0 then _ else max_int) + 1)) with min_int.
      change (min_int <? 0) with true. rewrite !orb_true_r. auto.
    + apply get_range_slice; auto; lia.
  - unfold get_range. cbn [str]. change (zlen []) with 0. rewrite !Z.add_0_l.
    destruct (Z.ltb_spec i 0) as [Hi|Hi].
    + rewrite (wrap64_small i) by lia. assert (Ej : (if j <? 0 then wrap64 j else j) = j) by (destruct (j <? 0); auto using wrap64_small).
      rewrite Ej. destruct (Z.ltb_spec j max_int).
      * rewrite (wrap64_small (j + 1)) by (unfold min_int, max_int in *; lia).
        destruct (Z.leb_spec (-1) j); cbn [andb].
        -- rewrite (proj2 (Z.ltb_ge (j + 1) i)), (proj2 (Z.leb_gt 0 i)), (proj2 (Z.ltb_ge (j + 1) 0)) by lia. auto.
        -- rewrite (proj2 (Z.ltb_lt (j + 1) 0)) by lia. rewrite !orb_true_r. auto.
      * replace j with max_int by lia. change (wrap64 (max_int + 1) <? 0) with true. rewrite !orb_true_r, andb_false_r. auto.
    + rewrite (proj2 (Z.leb_le 0 i)) by lia. rewrite orb_true_r. auto.
Qed.
Lemma go_append_exact v a : go_append v a = rewritten v (str v ++ a).
Proof. unfold go_append, rewritten. destruct v as [x|]; cbn; auto. Qed.
Lemma set_range_exact old o v : 0 <= o -> set_range old o v = None \/
  set_range old o v = Some (rewritten old (overwrite (str old) (Z.to_nat o) v)).
Proof.
  intros Ho. unfold set_range. destruct (Z.ltb_spec (zlen (str old)) o) as [Hl|Hl].
  - destruct (make_ok _ _); [right|auto]. f_equal. rewrite (go_append_exact (go_append old _)), go_append_str.
    assert (E : (str old ++ replicate (Z.to_nat (o - zlen (str old))) (ascii_of_N 0)) ++ v = overwrite (str old) (Z.to_nat o) v).
    { unfold overwrite. f_equal. rewrite take_ge; [|rewrite app_length, replicate_length; unfold zlen in *; lia].
      f_equal. f_equal. unfold zlen in *. lia. }
    rewrite E. destruct old as [x|]; cbn [go_append str rewritten]; auto.
    destruct (overwrite [] (Z.to_nat o) v) eqn:Eo; [|destruct (replicate _ _); auto].
    exfalso. cbn [str] in *. change (zlen []) with 0 in *. apply (f_equal length) in E. rewrite Eo, !app_length, replicate_length in E.
    cbn in E. lia.
  - right. f_equal. rewrite go_append_exact.
    assert (E : str (match old with None => None | Some s => Some (take (Z.to_nat o) s) end) ++ v = overwrite (str old) (Z.to_nat o) v).
    { unfold overwrite. f_equal. unfold zlen in Hl. replace (Z.to_nat o - length (str old))%nat with 0%nat by lia. cbn. rewrite app_nil_r.
      destruct old; cbn; auto. rewrite take_nil. auto. }
    rewrite E. destruct old; auto.
Qed.
Lemma setrange_meets n args now d : named n "setrange" -> Inv d -> meets now d (n :: args) (ref_of "setrange" args).
Proof.
  intros Hn HI. open_ref. destruct args as [|k [|a [|v [|? ?]]]]; try refuse Hn.
  unfold int, int_or. destruct (atoi (str a)) as [o|] eqn:Ea.
  2: { apply meets_say. exec_cmd Hn. unfold setrange_string. rewrite Ea. apply purge_say; auto. }
  destruct (Z.ltb_spec o 0) as [Ho|Ho].
  { apply meets_say. exec_cmd Hn. unfold setrange_string. rewrite Ea. apply purge_say; auto. intros.
    rewrite (proj2 (Z.ltb_lt o 0)) by auto. auto. }
  apply meets_onf. exec_cmd Hn. unfold setrange_string. rewrite Ea, (proj2 (Z.ltb_ge o 0)) by auto. purge_k. ent.
  - wps. destruct v0 as [s| | |]; cbn [on_str ref_setrange_at]; try (split; [rewrite Hraw; auto|auto]).
    destruct (set_range_exact s o (str v) Ho) as [->| ->]; [exact I|]. wps. cbn [oks]. unfold ref_setrange_at. cbn [on_str].
    split; [|intros; rawsimp; auto]. rawsimp. cbn [on_str]. f_equal. f_equal. f_equal.
    unfold rewritten. destruct s; auto. destruct (overwrite _ _ _); auto.
  - wps. destruct (set_range_exact (Some []) o (str v) Ho) as [->| ->]; [exact I|]. wps. cbn [oks].
    split; [|intros; rawsimp; auto]. rawsimp. unfold ref_setrange_at. cbn [on_str]. f_equal. 
Qed.
Lemma append_meets n args now d : named n "append" -> Inv d -> meets now d (n :: args) (ref_of "append" args).
Proof.
  intros Hn HI. open_ref. destruct args as [|k [|a [|? ?]]]; try refuse Hn.
  apply meets_onf. exec_cmd Hn. unfold append_string. purge_k. ent.
  - wps. destruct v as [s| | |]; cbn [on_str ref_append]; try (split; [rewrite Hraw; auto|auto]).
    rewrite go_append_exact. wps. unfold ref_append. cbn [on_str]. split; [|intros; rawsimp; auto]. rawsimp.
    f_equal. f_equal. f_equal. rewrite <- go_append_exact. apply go_append_str.
  - wps. split; [|intros; rawsimp; auto]. rawsimp. auto.
Qed.
Lemma setex_meets n args now d : named n "setex" -> Inv d -> meets now d (n :: args) (ref_of "setex" args).
Proof.
  intros Hn HI. open_ref. destruct args as [|k [|a [|v [|? ?]]]]; try refuse Hn.
  unfold int, int_or. destruct (atoi (str a)) as [i|] eqn:Ea.
  2: { apply meets_say. exec_cmd Hn. unfold setex_string. rewrite Ea. apply purge_say; auto. }
  apply meets_onf. exec_cmd Hn. unfold setex_string. rewrite Ea. purge_k. wps.
  split; [|intros; rawsimp; auto]. rawsimp. auto.
Qed.
Lemma in_pairs_flat l ps : in_pairs l = Some ps -> l = flat ps.
Proof.
  revert l ps. fix IH 1. intros [|k [|v r]] ps; cbn; try discriminate.
  - intros [= <-]. reflexivity.
  - destruct (in_pairs r) as [qs|] eqn:E; [|discriminate]. intros [= <-]. rewrite (IH r qs E). reflexivity.
Qed.
Lemma in_pairs_none l : in_pairs l = None -> pairs_of l = None.
Proof.
  revert l. fix IH 1. intros [|k [|v r]]; cbn; [discriminate|reflexivity|].
  destruct (in_pairs r) eqn:E; [discriminate|]. rewrite (IH r E). reflexivity.
Qed.
Lemma mset_meets n args now d : named n "mset" -> Inv d -> meets now d (n :: args) (ref_of "mset" args).
Proof.
  intros Hn HI. open_ref. destruct (in_pairs args) as [[|p ps]|] eqn:E.
  - apply in_pairs_flat in E as ->. refuse Hn.
  - apply in_pairs_flat in E as ->. apply meets_plain; [apply mset_ok| |nodl Hn]; auto.
  - apply meets_say. exec_cmd Hn. unfold mset_string. apply in_pairs_none in E. destruct args as [|k [|v r]]; try (split; auto using sim_refl).
    rewrite E. split; auto using sim_refl.
Qed.

(** ** The number EX takes *)
Lemma loop_range s : forall a v, 0 <= a <= max_u64 -> parse_uint_loop s a = (v, Some ErrRange) ->
  v = max_u64 /\ exists ds rest, s = ds ++ rest /\ Forall is_digit ds /\ 2 ^ 64 <= dec_from a ds.
Proof.
  induction s as [|c s IH]; intros a v Ha H; cbn in H; [discriminate|].
  destruct (is_digit_dec c) as [Hc|Hc]; [|rewrite (digit_not c Hc) in H; discriminate].
  destruct (digit_is c Hc) as [E Hd]. rewrite E in H.
  destruct (Z.leb_spec cutoff a).
  { injection H as <-. split; auto. exists [c], s. repeat split; auto. cbn. unfold cutoff, max_u64 in *.
    change (2 ^ 64 - 1) with 18446744073709551615 in *. change (18446744073709551615 / 10 + 1) with 1844674407370955162 in *. lia. }
  destruct (Z.ltb_spec max_u64 (a * 10 + digit_value c)).
  { injection H as <-. split; auto. exists [c], s. repeat split; auto. cbn. unfold max_u64 in *. lia. }
  apply IH in H as (-> & ds & rest & -> & HF & Hm); [|lia]. split; auto. exists (c :: ds), rest. repeat split; auto.
  cbn. replace (10 * a + digit_value c) with (a * 10 + digit_value c) by lia. auto.
Qed.
Lemma loop_syntax s : forall a v, 0 <= a <= max_u64 -> parse_uint_loop s a = (v, Some ErrSyntax) ->
  forall ds rest, s = ds ++ rest -> Forall is_digit ds -> dec_from a ds <= max_u64 /\ rest <> [].
Proof.
  induction s as [|c s IH]; intros a v Ha H ds rest Hs HF; cbn in H; [discriminate|].
  destruct ds as [|c' ds]; [cbn in Hs; subst rest; cbn; split; [lia|discriminate]|].
  injection Hs as <- Hs. inversion HF as [|? ? Hc HF']; subst.
  destruct (digit_is c Hc) as [E Hd]. rewrite E in H.
  destruct (cutoff <=? a); [discriminate|]. destruct (Z.ltb_spec max_u64 (a * 10 + digit_value c)); [discriminate|].
  cbn. replace (10 * a + digit_value c) with (a * 10 + digit_value c) by lia.
  eapply IH in H; eauto. lia.
Qed.
Definition over (lim : Z) (t : bytes) : Prop := exists ds rest, t = ds ++ rest /\ Forall is_digit ds /\
  (2 ^ 64 <= decimal ds \/ rest = [] /\ lim <= decimal ds).
Lemma signed_bad (neg : bool) t z e : parse_signed neg t = (z, Some e) ->
  (z = (if neg then min_int else max_int) /\ over (if neg then 2 ^ 63 + 1 else 2 ^ 63) t) \/
  (z = 0 /\ ~ over (if neg then 2 ^ 63 + 1 else 2 ^ 63) t /\ forall ds, t = ds -> ds <> [] -> ~ Forall is_digit ds).
Proof.
  unfold parse_signed. destruct (parse_uint t) as [un [[]|]] eqn:E; intros H.
  - injection H as <- <-. right. split; auto. unfold parse_uint in E. destruct t as [|c t].
    + split; [|intros; congruence]. intros (ds & rest & Hd & _ & Hv). symmetry in Hd. apply app_nil in Hd as [-> ->].
      cbn in Hv. destruct neg; lia.
    + assert (Hx := loop_syntax (c :: t) 0 _ ltac:(unfold max_u64; lia) E). split.
      * intros (ds & rest & Hd & HF & Hv). destruct (Hx ds rest Hd HF) as [Hle Hr].
        change (dec_from 0 ds) with (decimal ds) in Hle. unfold max_u64 in Hle. destruct Hv as [Hv|[Hv _]]; [lia|auto].
      * intros ds <- _ HF. destruct (Hx (c :: t) []) as [_ Hr]; auto. rewrite app_nil_r; auto.
  - left. assert (un = max_u64 /\ exists ds rest, t = ds ++ rest /\ Forall is_digit ds /\ 2 ^ 64 <= decimal ds) as [-> (ds & rest & Ht & HF & Hd)].
    { unfold parse_uint in E. destruct t; [discriminate|]. eapply loop_range; [|exact E]. unfold max_u64; lia. }
    split; [|exists ds, rest; auto]. destruct neg; cbn in H; injection H as <- <-; reflexivity.
  - left. unfold parse_uint in E. destruct t as [|c t]; [discriminate|].
    apply loop_inv in E as (HF & -> & Hm); [|unfold max_u64; lia]. change (dec_from 0 (c :: t)) with (decimal (c :: t)) in *.
    destruct neg; cbn [negb andb] in H.
    + destruct (Z.ltb_spec (2 ^ 63) (decimal (c :: t))); [|discriminate]. split; [injection H as <- <-; reflexivity|].
      exists (c :: t), []. rewrite app_nil_r. repeat split; auto. right. split; auto. lia.
    + destruct (Z.leb_spec (2 ^ 63) (decimal (c :: t))); [|discriminate]. split; [injection H as <- <-; reflexivity|].
      exists (c :: t), []. rewrite app_nil_r. repeat split; auto.
Qed.
Lemma digits_first c t ds rest : c :: t = ds ++ rest -> Forall is_digit ds -> ~ is_digit c -> ds = [].
Proof. intros H HF Hc. destruct ds; auto. injection H as <- _. inversion HF; tauto. Qed.
Lemma high_inv s : too_high s -> exists t, over (2 ^ 63) t /\
  (s = t /\ (forall c r, s = c :: r -> is_digit c) \/ s = B "+" ++ t).
Proof.
  intros (ds & rest & [[-> HF]|[-> HF]] & Hv).
  - exists (ds ++ rest). split; [exists ds, rest; auto|]. left. split; auto. cbn [app]. destruct ds as [|c ds].
    + cbn in Hv. lia.
    + intros c' r [= <- _]. inversion HF; auto.
  - exists (ds ++ rest). split; [exists ds, rest; auto|]. right. auto.
Qed.
Lemma low_inv s : too_low s -> exists t, over (2 ^ 63 + 1) t /\ s = B "-" ++ t.
Proof. intros (ds & rest & [-> HF] & Hv). exists (ds ++ rest). split; auto. exists ds, rest. repeat split; auto. destruct Hv as [?|[? ?]]; [auto|right; split; [auto|lia]]. Qed.
Lemma is_plus c : code c = 43%N -> c = "+"%char.
Proof. intros E. rewrite <- (ascii_N_embedding c). unfold code in E. rewrite E. reflexivity. Qed.
Lemma is_minus c : code c = 45%N -> c = "-"%char.
Proof. intros E. rewrite <- (ascii_N_embedding c). unfold code in E. rewrite E. reflexivity. Qed.
Lemma seconds_read s : seconds s (fst (parse_int s)).
Proof.
  destruct (atoi s) as [z|] eqn:Ea.
  { assert (E : fst (parse_int s) = z) by (unfold atoi in Ea; destruct (parse_int s) as [? [?|]]; [discriminate|cbn; congruence]).
    rewrite E. apply atoi_iff in Ea as [? ?]. apply sec_number; auto. }
  destruct (parse_int s) as [z [e|]] eqn:E; [|unfold atoi in Ea; rewrite E in Ea; discriminate]. cbn [fst].
  destruct s as [|c s].
  { cbn in E. injection E as <- <-. apply sec_junk.
    - intros z (ds & Hne & _ & [[[H|H] _]|[H _]]); destruct ds; congruence || discriminate.
    - intros (t & Ht & [[H Hc]|H])%high_inv; [|discriminate]. subst t. destruct Ht as (ds & rest & Hd & _ & Hv).
      symmetry in Hd. apply app_nil in Hd as [-> ->]. cbn in Hv. lia.
    - intros (t & _ & H)%low_inv. discriminate. }
  unfold parse_int in E. destruct (N.eqb_spec (code c) 43) as [Ec|Ec].
  { apply is_plus in Ec as ->. apply signed_bad in E as [[-> (ds & rest & -> & HF & Hv)]|(-> & Ho & Hd)].
    - apply sec_high. exists ds, rest. split; auto. right. split; auto.
    - apply sec_junk.
      + intros z (ds & Hne & HF & [[[H|H] _]|[H _]]).
        * destruct ds; [congruence|]. injection H as <- _. inversion HF as [|? ? Hx]; subst. destruct Hx as [Hx _]. vm_compute in Hx. congruence.
        * injection H as <-. eapply Hd; eauto.
        * discriminate.
      + intros (t & Ht & [[H Hc]|H])%high_inv; [|injection H as <-; auto].
        destruct (Hc _ _ eq_refl) as [Hx _]. vm_compute in Hx. congruence.
      + intros (t & _ & H)%low_inv. discriminate. }
  destruct (N.eqb_spec (code c) 45) as [Ec'|Ec'].
  { apply is_minus in Ec' as ->. apply signed_bad in E as [[-> (ds & rest & -> & HF & Hv)]|(-> & Ho & Hd)].
    - apply sec_low. exists ds, rest. split; [split; auto|]. destruct Hv as [?|[? ?]]; [auto|right; split; [auto|lia]].
    - apply sec_junk.
      + intros z (ds & Hne & HF & [[[H|H] _]|[H _]]).
        * destruct ds; [congruence|]. injection H as <- _. inversion HF as [|? ? Hx]; subst. destruct Hx as [Hx _]. vm_compute in Hx. congruence.
        * discriminate.
        * injection H as <-. eapply Hd; eauto.
      + intros (t & Ht & [[H Hc]|H])%high_inv; [|discriminate].
        destruct (Hc _ _ eq_refl) as [Hx _]. vm_compute in Hx. congruence.
      + intros (t & Ht & H)%low_inv. injection H as <-. auto. }
  apply signed_bad in E as [[-> (ds & rest & Hs & HF & Hv)]|(-> & Ho & Hd)].
  - apply sec_high. exists ds, rest. split; auto. left. split; auto.
  - apply sec_junk.
    + intros z (ds & Hne & HF & [[[H|H] _]|[H _]]).
      * eapply Hd; eauto.
      * injection H as -> _. auto.
      * injection H as -> _. auto.
    + intros (t & Ht & [[H Hc]|H])%high_inv; [subst t; auto|injection H as -> _; auto].
    + intros (t & Ht & H)%low_inv. injection H as -> _; auto.
Qed.

(** ** The options of SET *)
Lemma named_beq a s : named a s -> beq (to_lower (str a)) (B s) = true.
Proof. intros H. apply bool_decide_eq_true. exact H. Qed.
Lemma unnamed_beq a s : ~ named a s -> beq (to_lower (str a)) (B s) = false.
Proof. intros H. apply bool_decide_eq_false. exact H. Qed.
Lemma reads_sreads l : (exists os e, reads_set l os e /\ match e with None => sreads l os | Some r => forall o, set_opts l o = SP_err r end) \/
  (forall o, set_opts l o = SP_crash).
Proof.
  revert l. fix IH 1. intros [|a l].
  { left. exists [], None. split; constructor. }
  destruct (decide (named a "nx")) as [H|H1].
  { destruct (IH l) as [(os & e & Hr & He)|He]; [left|right].
    - exists (ONx :: os), e. split; [constructor; assumption|]. destruct e; [|constructor; assumption].
      intros o. cbn [set_opts]. unfold named in H. rewrite H. beqs. apply He.
    - intros o. cbn [set_opts]. unfold named in H. rewrite H. beqs. apply He. }
  destruct (decide (named a "xx")) as [H|H2].
  { destruct (IH l) as [(os & e & Hr & He)|He]; [left|right].
    - exists (OXx :: os), e. split; [constructor; assumption|]. destruct e; [|constructor; assumption].
      intros o. cbn [set_opts]. unfold named in H. rewrite H. beqs. apply He.
    - intros o. cbn [set_opts]. unfold named in H. rewrite H. beqs. apply He. }
  destruct (decide (named a "get")) as [H|H3].
  { destruct (IH l) as [(os & e & Hr & He)|He]; [left|right].
    - exists (OGet :: os), e. split; [constructor; assumption|]. destruct e; [|constructor; assumption].
      intros o. cbn [set_opts]. unfold named in H. rewrite H. beqs. apply He.
    - intros o. cbn [set_opts]. unfold named in H. rewrite H. beqs. apply He. }
  destruct (decide (named a "keepttl")) as [H|H4].
  { destruct (IH l) as [(os & e & Hr & He)|He]; [left|right].
    - exists (OKeep :: os), e. split; [constructor; assumption|]. destruct e; [|constructor; assumption].
      intros o. cbn [set_opts]. unfold named in H. rewrite H. beqs. apply He.
    - intros o. cbn [set_opts]. unfold named in H. rewrite H. beqs. apply He. }
  destruct (decide (named a "ex")) as [H|H5].
  { destruct l as [|m l].
    { right. intros o. cbn [set_opts]. unfold named in H. rewrite H. beqs. reflexivity. }
    destruct (IH l) as [(os & e & Hr & He)|He]; [left|right].
    - exists (OEx (fst (parse_int (str m))) :: os), e. split; [constructor; [assumption|apply seconds_read|assumption]|].
      destruct e; [|constructor; [assumption|reflexivity|assumption]].
      intros o. cbn [set_opts]. unfold named in H. rewrite H. beqs. apply He.
    - intros o. cbn [set_opts]. unfold named in H. rewrite H. beqs. apply He. }
  destruct (decide (named a "px")) as [H|H6].
  { destruct l as [|m l].
    { right. intros o. cbn [set_opts]. unfold named in H. rewrite H. beqs. reflexivity. }
    destruct (atoi (str m)) as [z|] eqn:Ea.
    2: { left. exists [], (Some err_int). split; [apply rs_px_bad; assumption|].
         intros o. cbn [set_opts]. unfold named in H. rewrite H. beqs.
         unfold atoi in Ea. destruct (parse_int (str m)) as [? [?|]]; [reflexivity|discriminate]. }
    assert (Ep : parse_int (str m) = (z, None)).
    { unfold atoi in Ea. destruct (parse_int (str m)) as [? [?|]]; [discriminate|congruence]. }
    destruct (IH l) as [(os & e & Hr & He)|He]; [left|right].
    - exists (OPx z :: os), e. split; [constructor; assumption|].
      destruct e; [|constructor; assumption].
      intros o. cbn [set_opts]. unfold named in H. rewrite H. beqs. rewrite Ep. apply He.
    - intros o. cbn [set_opts]. unfold named in H. rewrite H. beqs. rewrite Ep. apply He. }
  left. destruct (decide (named a "exat" \/ named a "pxat")) as [H|H7].
  { exists [], (Some err_int). split; [apply rs_at; assumption|]. intros o.
    exact (set_opts_at [] [] sr_nil a l o H). }
  eexists [], (Some _). split; [apply rs_unknown|].
  - intros s Hs Hn. cbn [In] in Hs. destruct Hs as [<-|[<-|[<-|[<-|[<-|[<-|[<-|[<-|[]]]]]]]]]; tauto.
  - intros o. apply (set_opts_unsupported [] [] sr_nil a l o).
    intros Hin. cbn [map] in Hin. unfold named in *. set_solver.
Qed.
Lemma set_meets n args now d : named n "set" -> Inv d -> meets now d (n :: args) (ref_of "set" args).
Proof.
  intros Hn HI. open_ref. destruct args as [|k [|v l]]; try refuse Hn.
  destruct (reads_sreads l) as [(os & [r0|] & Hr & He)|He].
  - assert (H : meets now d (n :: k :: v :: l) (say r0)).
    { apply meets_say. exec_cmd Hn. unfold set_string. apply purge_say; auto. intros. rewrite He. auto. }
    intros r d' Hst. destruct (H r d' Hst) as (S' & Hm & Hk). exists S'. split; auto. exists os, (Some r0). auto.
  - destruct (decide (length (List.filter is_expiry_opt os) <= 1)%nat) as [H1|H1];
    [destruct (decide (ONx ∈ os)) as [H2|H2]; [destruct (decide (OXx ∈ os)) as [H3|H3]|]|].
    1,4: assert (Hnot : ~ setopts_ok os) by (unfold setopts_ok; tauto);
      assert (H : meets now d (n :: k :: v :: l) (say err_syntax)) by
        (apply meets_say; eapply wp_mono; [|apply (set_syntax_wp now d n k v l os); auto];
         intros out (r & d' & -> & _ & [= -> Hraw] & Hfr); split; [auto|]; intros k';
         destruct (decide (k' = str k)) as [->|]; [|left; auto]; rewrite Hraw;
         destruct (expired now d (str k)) eqn:Ee; [right; rewrite view_expired; auto|left; apply view_notexpired; auto]);
      intros r d' Hst; destruct (H r d' Hst) as (S' & Hm & Hk); exists S'; split; auto; exists os, None; auto.
    all: assert (Hok : setopts_ok os) by (unfold setopts_ok; tauto);
      assert (H : meets now d (n :: k :: v :: l) (on k (set_spec os v))) by
        (apply meets_on, oks_done, set_wp; auto);
      intros r d' Hst; destruct (H r d' Hst) as (S' & Hm & Hk); exists S'; split; auto; exists os, None; auto.
  - apply (meets_wp now d _ (fun _ _ => False)); [|tauto]. exec_cmd Hn. unfold set_string. apply wp_purge_sim; auto. intros.
    rewrite He. exact I.
Qed.

(** ** MGET *)
Lemma kept_keys_ext g h ks : (forall x, g x = h x) -> kept_keys g ks = kept_keys h ks.
Proof.
  revert g h. induction ks as [|k ks IH]; intros g h E; cbn; auto. rewrite E. destruct (h (str k)).
  - apply IH. intros x. rewrite E. auto.
  - f_equal. auto.
Qed.
Lemma lingers_purge now d k x : lingers now (raw (purge k d) x) = lingers now (raw d x) && negb (bool_decide (x = k)).
Proof.
  rewrite raw_purge. destruct (decide (x = k)) as [->|Hne].
  - rewrite bool_decide_eq_true_2 by auto. rewrite andb_false_r. auto.
  - rewrite bool_decide_eq_false_2 by auto. rewrite andb_true_r. auto.
Qed.
Lemma mget_loop_kept now ks : forall d acc (f : list rdata -> prog rdata) Q, Inv d ->
  (forall d', sim now d' d -> wp (eq now) d' (f (acc ++ map (mget_one (view now d)) (kept_keys (fun x => lingers now (raw d x)) ks))) Q) ->
  wp (eq now) d (pbind (mget_loop ks acc) f) Q.
Proof.
  induction ks as [|k ks IH]; intros d acc f Q HI H.
  - cbn [kept_keys map] in H. specialize (H d (sim_refl _ _)). rewrite app_nil_r in H. exact H.
  - cbn [mget_loop kept_keys] in *. rewrite lingers_expired in H by auto. rewrite pbind_assoc, wp_purge. destruct (expired now d (str k)) eqn:Ee.
    + apply IH; auto with inv. intros d' Hs.
      assert (Hs' : sim now d' d) by (eapply sim_trans; eauto using sim_purge).
      specialize (H d' Hs').
      erewrite map_ext; [|intros a; unfold mget_one; rewrite (sim_view now (purge (str k) d) d) by (auto using sim_purge; lia); reflexivity].
      erewrite kept_keys_ext; [exact H|]. intros x. apply lingers_purge.
    + rewrite pbind_assoc, wp_with_lock. wps.
      assert (E : mget_one (view now d) k = match dict d !! str k with Some (VStr s) => RBulk s | _ => RBulk None end).
      { unfold mget_one. rewrite view_notexpired by auto. unfold raw. destruct (dict d !! str k) as [[]|]; auto. }
      cbn [map] in H. rewrite E in H.
      assert (Hf : forall d' : db, sim now d' d -> wp (eq now) d' (f ((acc ++ [match dict d !! str k with Some (VStr s) => RBulk s | _ => RBulk None end]) ++
          map (mget_one (view now d)) (kept_keys (fun x : bytes => lingers now (raw d x)) ks))) Q).
      { intros d' Hs. rewrite <- app_assoc. apply H; auto. }
      destruct (dict d !! str k) as [[]|]; wps; apply IH; auto.
Qed.
Lemma mget_meets n args now d : named n "mget" -> Inv d -> meets now d (n :: args) (ref_of "mget" args).
Proof.
  intros Hn HI. open_ref. destruct args as [|k ks]; [refuse Hn|]. unfold all_of, ref_mget.
  apply (meets_sim now d _ (fun r => r = RArr (Some (map (mget_one (view now d)) (kept_keys (fun x => lingers now (raw d x)) (k :: ks)))))).
  - exec_cmd Hn. unfold mget_string. apply mget_loop_kept; auto. intros d' Hs. split; auto.
  - intros r S' -> HS. split; auto.
Qed.
End WithParams.
