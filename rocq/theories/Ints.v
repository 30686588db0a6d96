(** strconv.Atoi / ParseInt and FormatInt as modelled in Bytes.v. *)
From Verif Require Export SpecWire.

Definition dec_from (a : Z) (ds : bytes) : Z := fold_left (fun a c => 10 * a + digit_value c) ds a.
Lemma dec_from_app a x y : dec_from a (x ++ y) = dec_from (dec_from a x) y.
Proof. unfold dec_from. apply fold_left_app. Qed.
Lemma digit_is c : is_digit c -> digit c = Some (digit_value c) /\ 0 <= digit_value c <= 9.
Proof.
  unfold is_digit, digit, digit_value. intros H.
  destruct (Z.leb_spec 48 (Z.of_N (code c))), (Z.leb_spec (Z.of_N (code c)) 57); cbn; try lia. split; [auto|lia].
Qed.
Lemma digit_not c : ~ is_digit c -> digit c = None.
Proof.
  unfold is_digit, digit. intros H.
  destruct (Z.leb_spec 48 (Z.of_N (code c))), (Z.leb_spec (Z.of_N (code c)) 57); cbn; auto. exfalso; apply H; lia.
Qed.
Lemma is_digit_dec c : {is_digit c} + {~ is_digit c}.
Proof. unfold is_digit. destruct (decide (48 <= code c)%N), (decide (code c <= 57)%N); [left|right|right|right]; lia. Qed.
Lemma dec_from_mono ds : forall a, 0 <= a -> Forall is_digit ds -> a <= dec_from a ds.
Proof.
  induction ds as [|c ds IH]; intros a Ha HF; cbn; [lia|]. inversion HF; subst.
  destruct (digit_is c) as [_ Hd]; auto. etransitivity; [|apply IH; auto]; lia.
Qed.
Lemma loop_ok ds : forall a, 0 <= a <= max_u64 -> Forall is_digit ds -> dec_from a ds <= max_u64 ->
  parse_uint_loop ds a = (dec_from a ds, None).
Proof.
  induction ds as [|c ds IH]; intros a Ha HF Hm; cbn; [auto|]. inversion HF; subst.
  destruct (digit_is c) as [-> Hd]; auto. cbn in Hm. set (x := digit_value c) in *.
  assert (Hx : 10 * a + x <= max_u64).
  { etransitivity; [|exact Hm]. apply dec_from_mono; auto. lia. }
  destruct (Z.leb_spec cutoff a).
  { unfold cutoff in *. assert (max_u64 / 10 * 10 <= max_u64 < max_u64 / 10 * 10 + 10) by
      (pose proof (Z.div_mod max_u64 10); pose proof (Z.mod_pos_bound max_u64 10); lia). lia. }
  replace (a * 10 + x) with (10 * a + x) by lia.
  destruct (Z.ltb_spec max_u64 (10 * a + x)); [lia|]. apply IH; auto; lia.
Qed.
Lemma loop_inv ds : forall a v, 0 <= a <= max_u64 -> parse_uint_loop ds a = (v, None) ->
  Forall is_digit ds /\ v = dec_from a ds /\ v <= max_u64.
Proof.
  induction ds as [|c ds IH]; intros a v Ha H; cbn in H.
  - injection H as <-. cbn. repeat split; auto; lia.
  - destruct (is_digit_dec c) as [Hc|Hc]; [|rewrite (digit_not c Hc) in H; discriminate].
    destruct (digit_is c Hc) as [E Hd]. rewrite E in H.
    destruct (cutoff <=? a); [discriminate|].
    destruct (Z.ltb_spec max_u64 (a * 10 + digit_value c)) as [|Hle]; [discriminate|].
    apply IH in H as (HF & -> & Hm); [|lia]. cbn.
    replace (10 * a + digit_value c) with (a * 10 + digit_value c) by lia. repeat split; auto.
Qed.

Lemma digit_not_sign c : is_digit c -> (code c =? 43)%N = false /\ (code c =? 45)%N = false.
Proof. unfold is_digit. intros. split; apply N.eqb_neq; lia. Qed.
Lemma parse_uint_ok ds : ds <> [] -> Forall is_digit ds -> decimal ds <= max_u64 -> parse_uint ds = (decimal ds, None).
Proof. intros Hne HF Hm. unfold parse_uint. destruct ds; [congruence|]. apply loop_ok; auto. unfold max_u64; lia. Qed.
Lemma decimal_nonneg ds : Forall is_digit ds -> 0 <= decimal ds.
Proof. intros. apply (dec_from_mono ds 0); auto; lia. Qed.

Lemma signed_ok (neg : bool) ds : ds <> [] -> Forall is_digit ds -> fits64 (if neg then - decimal ds else decimal ds) ->
  parse_signed neg ds = ((if neg then - decimal ds else decimal ds), None).
Proof.
  intros Hne HF Hr. pose proof (decimal_nonneg ds HF). unfold fits64 in Hr. unfold parse_signed.
  rewrite parse_uint_ok by (auto; unfold max_u64; destruct neg; lia).
  destruct neg; cbn [negb andb].
  - destruct (Z.ltb_spec (2 ^ 63) (decimal ds)); [lia|]. auto.
  - destruct (Z.leb_spec (2 ^ 63) (decimal ds)); [lia|]. auto.
Qed.
Lemma signed_inv (neg : bool) ds n : parse_signed neg ds = (n, None) ->
  ds <> [] /\ Forall is_digit ds /\ n = (if neg then - decimal ds else decimal ds) /\ fits64 n.
Proof.
  unfold parse_signed. destruct (parse_uint ds) as [un o] eqn:E. intros H.
  assert (Ho : o = None /\ (if negb neg && (2 ^ 63 <=? un) then False
      else if neg && (2 ^ 63 <? un) then False else n = (if neg then - un else un))).
  { destruct o as [[]|]; [discriminate| |].
    - exfalso. unfold parse_uint in E. destruct ds; [discriminate|].
      assert (Hmax : forall s a, 0 <= a -> parse_uint_loop s a = (un, Some ErrRange) -> un = max_u64).
      { clear. induction s as [|c s IH]; cbn; [discriminate|]. intros a' Ha'.
        destruct (is_digit_dec c) as [Hc|Hc]; [|rewrite (digit_not c Hc); discriminate].
        destruct (digit_is c Hc) as [-> ?]. destruct (cutoff <=? a'); [congruence|].
        destruct (max_u64 <? a' * 10 + digit_value c); [congruence|]. apply IH. lia. }
      apply Hmax in E; [|lia]. subst un. unfold max_u64 in H. destruct neg; cbn in H; discriminate.
    - split; auto. destruct (negb neg && (2 ^ 63 <=? un)); [discriminate|].
      destruct (neg && (2 ^ 63 <? un)); [discriminate|]. congruence. }
  destruct Ho as [-> Hn]. unfold parse_uint in E. destruct ds as [|c ds]; [discriminate|].
  apply loop_inv in E as (HF & Hu & Hm); [|unfold max_u64; lia]. change (dec_from 0 (c :: ds)) with (decimal (c :: ds)) in Hu.
  pose proof (decimal_nonneg _ HF). unfold fits64.
  destruct neg; cbn [negb andb] in Hn.
  - destruct (Z.ltb_spec (2 ^ 63) un); [destruct Hn|]. subst. repeat split; auto; lia.
  - destruct (Z.leb_spec (2 ^ 63) un); [destruct Hn|]. subst. repeat split; auto; lia.
Qed.

Theorem atoi_iff s n : atoi s = Some n <-> denotes s n /\ fits64 n.
Proof.
  split.
  - unfold atoi, parse_int. destruct s as [|c s]; [discriminate|]. intros H.
    assert (Hsg : forall (neg : bool) ds, (match parse_signed neg ds with (n, None) => Some n | _ => None end) = Some n ->
      ds <> [] /\ Forall is_digit ds /\ n = (if neg then - decimal ds else decimal ds) /\ fits64 n).
    { intros neg ds. destruct (parse_signed neg ds) as [v [e|]] eqn:E; [discriminate|]. intros [= <-].
      apply signed_inv; auto. }
    destruct (N.eqb_spec (code c) 43) as [E|E]; [|destruct (N.eqb_spec (code c) 45) as [E'|E']].
    + destruct (Hsg false s H) as (Hne & HF & Hn & Hf). split; auto. exists s. repeat split; auto. left. split; auto.
      right. cbn. f_equal. rewrite <- (ascii_N_embedding c). unfold code in E. rewrite E. reflexivity.
    + destruct (Hsg true s H) as (Hne & HF & Hn & Hf). split; auto. exists s. repeat split; auto. right. split; auto.
      cbn. f_equal. rewrite <- (ascii_N_embedding c). unfold code in E'. rewrite E'. reflexivity.
    + destruct (Hsg false (c :: s) H) as (Hne & HF & Hn & Hf). split; auto. exists (c :: s). repeat split; auto.
  - intros [(ds & Hne & HF & [[[->| ->] ->]|[-> ->]]) Hf]; unfold atoi, parse_int; cbn [B list_ascii_of_string app].
    + destruct ds as [|c ds]; [congruence|]. inversion HF; subst.
      destruct (digit_not_sign c) as [-> ->]; auto. rewrite (signed_ok false); auto.
    + change (code "+" =? 43)%N with true. cbv iota. rewrite (signed_ok false); auto.
    + change (code "-" =? 43)%N with false. change (code "-" =? 45)%N with true. cbv iota. rewrite (signed_ok true); auto.
Qed.

(** ** Formatting *)
Lemma digit_char_spec d : (d < 10)%N -> is_digit (digit_char d) /\ digit_value (digit_char d) = Z.of_N d.
Proof.
  intros H. unfold is_digit, digit_value, digit_char, code. rewrite N_ascii_embedding by lia. lia.
Qed.
Lemma fmt_loop_spec fuel : forall n acc, (n < 2 ^ N.of_nat fuel)%N -> (0 < fuel)%nat ->
  exists ds, fmt_loop fuel n acc = ds ++ acc /\ ds <> [] /\ Forall is_digit ds /\ decimal ds = Z.of_N n.
Proof.
  induction fuel as [|f IH]; intros n acc Hn Hf; [lia|]. cbn [fmt_loop].
  destruct (digit_char_spec (n mod 10)) as [Hd Hv]; [apply N.mod_lt; lia|].
  destruct (N.ltb_spec n 10).
  - exists [digit_char (n mod 10)]. repeat split; auto.
    unfold decimal. cbn [fold_left]. rewrite Hv, N.mod_small by lia. lia.
  - assert (Hdiv : (n = 10 * (n / 10) + n mod 10)%N) by (apply N.div_mod; lia).
    assert (Hlt : (n / 10 < 2 ^ N.of_nat f)%N).
    { apply N.div_lt_upper_bound; [lia|]. rewrite Nat2N.inj_succ, N.pow_succ_r' in Hn. lia. }
    destruct f as [|f'].
    { cbn in Hlt. assert (n / 10 = 0)%N by lia. apply N.div_small_iff in H0; lia. }
    destruct (IH (n / 10)%N (digit_char (n mod 10) :: acc) Hlt) as (ds & -> & Hne & HF & Hdec); [lia|].
    exists (ds ++ [digit_char (n mod 10)]). rewrite <- app_assoc. repeat split; auto.
    + destruct ds; discriminate.
    + apply Forall_app; auto.
    + unfold decimal in *. rewrite fold_left_app, Hdec. cbn [fold_left]. rewrite Hv. lia.
Qed.
Lemma fmt_N_spec n : fmt_N n <> [] /\ Forall is_digit (fmt_N n) /\ decimal (fmt_N n) = Z.of_N n.
Proof.
  unfold fmt_N. destruct (fmt_loop_spec (S (N.size_nat n)) n []) as (ds & -> & Hne & HF & Hd); [|lia|].
  - assert (n < 2 ^ N.of_nat (N.size_nat n))%N.
    { destruct n as [|p]; [cbn; lia|]. cbn [N.size_nat]. induction p as [p IH|p IH|]; cbn [Pos.size_nat];
        [| |cbn; lia]; rewrite Nat2N.inj_succ, N.pow_succ_r'; lia. }
    rewrite Nat2N.inj_succ, N.pow_succ_r'. lia.
  - rewrite app_nil_r. auto.
Qed.
Lemma fmt_int_denotes z : denotes (fmt_int z) z.
Proof.
  unfold fmt_int. destruct (Z.ltb_spec z 0).
  - destruct (fmt_N_spec (Z.to_N (- z))) as (Hne & HF & Hd). exists (fmt_N (Z.to_N (- z))). repeat split; auto.
    right. split; [reflexivity|]. rewrite Hd. lia.
  - destruct (fmt_N_spec (Z.to_N z)) as (Hne & HF & Hd). exists (fmt_N (Z.to_N z)). repeat split; auto.
    left. split; auto. rewrite Hd. lia.
Qed.
Theorem atoi_fmt_int z : min_int <= z <= max_int -> atoi (fmt_int z) = Some z.
Proof. intros H. apply atoi_iff. split; [apply fmt_int_denotes|]. unfold min_int, max_int, fits64 in *. lia. Qed.

Lemma wrap64_add_l a b : wrap64 (wrap64 a + b) = wrap64 (a + b).
Proof.
  unfold wrap64. f_equal.
  replace ((a + 2 ^ 63) mod 2 ^ 64 - 2 ^ 63 + b + 2 ^ 63) with ((a + 2 ^ 63) mod 2 ^ 64 + b) by lia.
  rewrite Zplus_mod_idemp_l. f_equal. lia.
Qed.

(** Formatting writes no leading zeros. *)
Lemma fmt_loop_head fuel : forall n acc, (n < 2 ^ N.of_nat fuel)%N -> (0 < n)%N -> (0 < fuel)%nat ->
  exists c ds, fmt_loop fuel n acc = c :: ds ++ acc /\ c <> "0"%char.
Proof.
  induction fuel as [|f IH]; intros n acc Hn H0 Hf; [lia|]. cbn [fmt_loop].
  destruct (N.ltb_spec n 10).
  - exists (digit_char (n mod 10)), []. split; [reflexivity|]. intros E. apply (f_equal code) in E.
    unfold digit_char, code in E. rewrite N_ascii_embedding in E; rewrite N.mod_small in *; try lia. vm_compute in E. destruct n; [lia|]. 
    assert (48 + N.pos p = 48)%N by exact E. lia.
  - assert (Hdiv : (n = 10 * (n / 10) + n mod 10)%N) by (apply N.div_mod; lia).
    assert (Hm : (n mod 10 < 10)%N) by (apply N.mod_lt; lia).
    assert (Hlt : (n / 10 < 2 ^ N.of_nat f)%N).
    { apply N.div_lt_upper_bound; [lia|]. rewrite Nat2N.inj_succ, N.pow_succ_r' in Hn. lia. }
    destruct f as [|f'].
    { cbn in Hlt. assert (n / 10 = 0)%N as E by lia. rewrite E in Hdiv. lia. }
    destruct (IH (n / 10)%N (digit_char (n mod 10) :: acc) Hlt) as (c & ds & E & Hc); [lia|lia|].
    exists c, (ds ++ [digit_char (n mod 10)]). rewrite E, <- app_assoc. auto.
Qed.
Lemma fmt_N_canonical n : (0 < n)%N -> exists c ds, fmt_N n = c :: ds /\ Forall is_digit (c :: ds) /\ c <> "0"%char.
Proof.
  intros H. destruct (fmt_N_spec n) as (_ & HF & _). unfold fmt_N in *.
  destruct (fmt_loop_head (S (N.size_nat n)) n []) as (c & ds & E & Hc); [|lia|lia|].
  - assert (n < 2 ^ N.of_nat (N.size_nat n))%N.
    { clear. destruct n as [|p]; [cbn; lia|]. cbn [N.size_nat]. induction p as [p IH|p IH|]; cbn [Pos.size_nat];
        [| |cbn; lia]; rewrite Nat2N.inj_succ, N.pow_succ_r'; lia. }
    rewrite Nat2N.inj_succ, N.pow_succ_r'. lia.
  - rewrite app_nil_r in E. rewrite E in *. eauto.
Qed.
Lemma fmt_int_canonical z : canonical (fmt_int z).
Proof.
  unfold fmt_int. destruct (Z.ltb_spec z 0).
  - right. destruct (fmt_N_canonical (Z.to_N (- z))) as (c & ds & -> & HF & Hc); [lia|]. exists c, ds. auto.
  - destruct (decide (z = 0)) as [->|]; [left; reflexivity|].
    right. destruct (fmt_N_canonical (Z.to_N z)) as (c & ds & -> & HF & Hc); [lia|]. exists c, ds. auto.
Qed.
Lemma wrap64_spec z : fits64 (wrap64 z) /\ exists q, wrap64 z = z + q * 2 ^ 64.
Proof.
  unfold wrap64, fits64. pose proof (Z.mod_pos_bound (z + 2 ^ 63) (2 ^ 64)). split; [lia|].
  exists (- ((z + 2 ^ 63) / 2 ^ 64)). pose proof (Z.div_mod (z + 2 ^ 63) (2 ^ 64)). lia.
Qed.
