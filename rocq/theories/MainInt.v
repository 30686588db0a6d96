(** Proofs about integers on the command line. *)
From Verif Require Export SpecMain.

Definition based (b : Z) : Prop := b = 2 \/ b = 8 \/ b = 10 \/ b = 16.
Definition all_codes : list N := map N.of_nat (seq 0 256).
Lemma ascii_all (Q : ascii -> bool) : forallb (fun n => Q (ascii_of_N n)) all_codes = true -> forall c, Q c = true.
Proof.
  intros H c. rewrite forallb_forall in H. rewrite <- (ascii_N_embedding c). apply H. unfold all_codes. apply in_map_iff.
  exists (N.to_nat (N_of_ascii c)). split; [apply N2Nat.id|]. apply in_seq. pose proof (N_ascii_bounded c). lia.
Qed.
Definition digit_table (b : Z) (c : ascii) : bool :=
  forallb (fun d => eqb (bool_decide (digit_in b c = Some d)) (bool_decide (0 <= d < b /\ (B "0123456789abcdef" !! Z.to_nat d = Some c \/ B "0123456789ABCDEF" !! Z.to_nat d = Some c))))
    (map Z.of_nat (seq 0 16)) &&
  match digit_in b c with Some d => bool_decide (0 <= d < 16) | None => true end.
Lemma digit_in_spec b c d : based b -> digit_in b c = Some d <-> is_digit_of b c d.
Proof.
  intros Hb. assert (H : forall c, digit_table b c = true).
  { apply ascii_all. destruct Hb as [-> | [-> | [-> | ->]]]; vm_compute; reflexivity. }
  specialize (H c). apply andb_true_iff in H as [H1 H2]. rewrite forallb_forall in H1.
  assert (Hin : 0 <= d < 16 -> digit_in b c = Some d <-> is_digit_of b c d).
  { intros Hd. specialize (H1 d). rewrite eqb_true_iff in H1. unfold is_digit_of. 
    assert (E : bool_decide (digit_in b c = Some d) = bool_decide (0 <= d < b /\ (B "0123456789abcdef" !! Z.to_nat d = Some c \/ B "0123456789ABCDEF" !! Z.to_nat d = Some c))).
    { apply H1. apply in_map_iff. exists (Z.to_nat d). split; [lia|]. apply in_seq. lia. }
    split; intros G; [apply (bool_decide_eq_true_1 _); rewrite <- E; apply bool_decide_eq_true_2; exact G|apply (bool_decide_eq_true_1 _); rewrite E; apply bool_decide_eq_true_2; exact G]. }
  split; intros H.
  - apply Hin; auto. rewrite H in H2. apply bool_decide_eq_true in H2. exact H2.
  - apply Hin; auto. destruct H as [H _]. destruct Hb as [-> | [-> | [-> | ->]]]; lia.
Qed.

(** The digits of a base are those that underscoreOK takes for digits. *)
Definition seen_digit (hex : bool) (c : ascii) : bool :=
  ((48 <=? code c) && (code c <=? 57))%N || hex && ((97 <=? lowered c) && (lowered c <=? 102))%N.
Lemma digit_seen b c d : based b -> digit_in b c = Some d -> seen_digit (b =? 16) c = true.
Proof.
  intros Hb H. assert (G : forall c, match digit_in b c with Some _ => seen_digit (b =? 16) c | None => true end = true).
  { apply ascii_all. destruct Hb as [-> | [-> | [-> | ->]]]; vm_compute; reflexivity. }
  specialize (G c). rewrite H in G. exact G.
Qed.
Lemma under_not_digit b : based b -> digit_in b "_" = None.
Proof. intros [-> | [-> | [-> | ->]]]; reflexivity. Qed.
Lemma under_not_seen hex : seen_digit hex "_" = false.
Proof. destruct hex; reflexivity. Qed.
Lemma under_step hex w c r : under_loop hex w (c :: r) =
  if seen_digit hex c then under_loop hex SawDigit r else if Ascii.eqb c "_" then match w with SawDigit => under_loop hex SawUnder r | _ => false end
  else match w with SawUnder => false | _ => under_loop hex SawOther r end.
Proof. reflexivity. Qed.

Section Base.
Context (b : Z) (Hb : based b).
Lemma digits_further r : forall n us m us', digits_from b r n us = Some (m, us') ->
  (under_loop (b =? 16) SawDigit r = true -> further b r n m) /\
  (under_loop (b =? 16) SawUnder r = true -> exists c r' d, r = c :: r' /\ is_digit_of b c d /\ further b r' (n * b + d) m).
Proof.
  induction r as [|c r IH]; intros n us m us' H.
  - injection H as <- <-. split; [constructor|discriminate].
  - cbn [digits_from] in H. rewrite !under_step. destruct (Ascii.eqb_spec c "_") as [->|Hc].
    + rewrite under_not_seen. split; [|discriminate]. intros Hu. destruct (IH _ _ _ _ H) as [_ G]. destruct (G Hu) as (c' & r' & d & -> & Hd & Hf). eapply fu_under; eauto.
    + destruct (digit_in b c) as [d|] eqn:Ed; [|discriminate]. rewrite (digit_seen b c d Hb Ed). destruct (IH _ _ _ _ H) as [G _].
      apply digit_in_spec in Ed; auto. split; intros Hu; [eapply fu_digit; eauto|exists c, r, d; auto].
Qed.
Lemma digits_mono r : forall n us m us', digits_from b r n us = Some (m, us') -> us = true -> us' = true.
Proof.
  induction r as [|c r IH]; intros n us m us' H E; [injection H as <- <-; auto|].
  cbn [digits_from] in H. destruct (Ascii.eqb c "_"); [eapply IH; eauto|]. destruct (digit_in b c); [|discriminate]. eapply IH; eauto.
Qed.
Lemma digits_plain r : forall n us m w, w <> SawUnder -> digits_from b r n us = Some (m, false) -> under_loop (b =? 16) w r = true.
Proof.
  induction r as [|c r IH]; intros n us m w Hw H; [destruct w; auto; congruence|].
  cbn [digits_from] in H. rewrite under_step. destruct (Ascii.eqb_spec c "_") as [->|Hc].
  - apply digits_mono in H; [discriminate|reflexivity].
  - destruct (digit_in b c) as [d|] eqn:Ed; [|discriminate]. rewrite (digit_seen b c d Hb Ed). eapply IH; [|exact H]. discriminate.
Qed.
Lemma further_digits r n m : further b r n m -> forall us, (exists us', digits_from b r n us = Some (m, us')) /\ under_loop (b =? 16) SawDigit r = true.
Proof.
  induction 1 as [n|c d r n m Hd _ IH|c d r n m Hd _ IH]; intros us; [split; [eexists|]; reflexivity| |].
  all: apply digit_in_spec in Hd; auto; assert (Hc : Ascii.eqb c "_" = false) by (apply Ascii.eqb_neq; intros ->; rewrite under_not_digit in Hd by auto; discriminate).
  all: pose proof (digit_seen b c d Hb Hd) as Hs; rewrite !under_step.
  - cbn [digits_from]. rewrite Hc, Hd, Hs. apply IH.
  - rewrite under_not_seen, Hs. cbn [digits_from]. rewrite Hc, Hd. cbn [Ascii.eqb eqb]. apply IH.
Qed.
(** With the check. *)
Lemma further_iff r n m : (exists us, digits_from b r n false = Some (m, us) /\ (us = true -> under_loop (b =? 16) SawDigit r = true)) <-> further b r n m.
Proof.
  split.
  - intros (us & H & Hu). apply (digits_further _ _ _ _ _ H). destruct us; [auto|]. eapply digits_plain; [|exact H]. discriminate.
  - intros H. destruct (further_digits _ _ _ H false) as [[us E] Hu]. eauto.
Qed.
End Base.

Lemma base_letter_cases x : base_letter x = match List.find (fun p => Ascii.eqb p.1 x) [("b"%char, 2); ("B"%char, 2); ("o"%char, 8); ("O"%char, 8); ("x"%char, 16); ("X"%char, 16)] with Some p => Some p.2 | None => None end.
Proof.
  assert (G : forall c, bool_decide (base_letter c = match List.find (fun p => Ascii.eqb p.1 c) [("b"%char, 2); ("B"%char, 2); ("o"%char, 8); ("O"%char, 8); ("x"%char, 16); ("X"%char, 16)] with Some p => Some p.2 | None => None end) = true).
  { apply ascii_all. vm_compute. reflexivity. }
  specialize (G x). apply bool_decide_eq_true in G. exact G.
Qed.
Definition prefixes : list (bytes * Z) := [(B "0b", 2); (B "0B", 2); (B "0o", 8); (B "0O", 8); (B "0x", 16); (B "0X", 16)].
Lemma base_letter_in x b : base_letter x = Some b <-> (["0"%char; x], b) ∈ prefixes.
Proof.
  rewrite base_letter_cases. unfold prefixes. rewrite !elem_of_cons, elem_of_nil.
  cbn [List.find fst snd].
  repeat match goal with |- context [Ascii.eqb ?y ?z] => destruct (Ascii.eqb_spec y z) as [<-|?] end.
  all: split; [intros [= <-] | intros G]; cbn in *; repeat match goal with H : _ \/ _ |- _ => destruct H as [H|H] | H : (_, _) = (_, _) |- _ => injection H as ?; subst | H : False |- _ => destruct H end; auto; try congruence; try tauto.
Qed.
Lemma base_letter_based x b : base_letter x = Some b -> based b.
Proof.
  rewrite base_letter_in. unfold prefixes. rewrite !elem_of_cons, elem_of_nil. intros H.
  repeat match goal with H : _ \/ _ |- _ => destruct H as [H|H] | H : (_, _) = (_, _) |- _ => injection H as ? ?; subst | H : False |- _ => destruct H end; unfold based; auto.
Qed.

(** A number without sign. *)
Lemma uint0_spec s n : uint0 s = Some n -> literal s n.
Proof.
  destruct s as [|c s]; [discriminate|]. unfold uint0. intros H.
  destruct (Ascii.eqb_spec c "0") as [->|Hc].
  - destruct s as [|x s].
    + injection H as <-. apply (lit_octal []). constructor.
    + destruct (split_base ("0"%char :: x :: s)) as [b d] eqn:Es. destruct (digits_from b d 0 false) as [[m us]|] eqn:Ed; [|discriminate].
      destruct (us && negb (under_ok ("0"%char :: x :: s))) eqn:Eu; [discriminate|]. injection H as ->.
      assert (Hu : us = true -> under_ok ("0"%char :: x :: s) = true) by (intros ->; cbn [andb] in Eu; apply negb_false_iff in Eu; exact Eu).
      destruct (base_letter x) as [b'|] eqn:Eb.
      * destruct s as [|y s].
        -- cbn in Es. injection Es as <- <-. cbn [digits_from] in Ed. rewrite base_letter_cases in Eb. cbn [List.find fst snd] in Eb.
           exfalso. repeat match goal with H : context [Ascii.eqb ?y ?z] |- _ => destruct (Ascii.eqb_spec y z) as [<-|?] end; try discriminate; vm_compute in Ed; discriminate.
        -- cbn in Es. rewrite Eb in Es. injection Es as <- <-. pose proof Eb as Hb. apply base_letter_based in Hb.
           apply (lit_prefix ["0"%char; x] b'); [apply base_letter_in; exact Eb|discriminate|]. apply further_iff; auto. exists us. split; [exact Ed|]. intros E. specialize (Hu E).
           unfold under_ok in Hu. cbn [Ascii.eqb eqb orb] in Hu. rewrite Eb in Hu. exact Hu.
      * assert (Es' : (b, d) = (8, x :: s)). { rewrite <- Es. cbn. destruct s; [reflexivity|]. rewrite Eb. reflexivity. }
        injection Es' as -> ->. apply (lit_octal (x :: s)). apply further_iff; [unfold based; auto|]. exists us. split; [exact Ed|]. intros E. specialize (Hu E).
        unfold under_ok in Hu. cbn [Ascii.eqb eqb orb] in Hu. rewrite Eb in Hu. rewrite under_step in Hu. exact Hu.
  - assert (Es : split_base (c :: s) = (10, c :: s)). { unfold split_base. destruct c as [[] [] [] [] [] [] [] []]; try reflexivity. congruence. }
    rewrite Es in H. destruct (digits_from 10 (c :: s) 0 false) as [[m us]|] eqn:Ed; [|discriminate].
    destruct (us && negb (under_ok (c :: s))) eqn:Eu; [discriminate|]. injection H as ->.
    assert (Hu : us = true -> under_ok (c :: s) = true) by (intros ->; cbn [andb] in Eu; apply negb_false_iff in Eu; exact Eu).
    assert (Hd : is_Some (digit_in 10 c) \/ c = "_"%char).
    { cbn [digits_from] in Ed. destruct (Ascii.eqb_spec c "_"); [auto|]. destruct (digit_in 10 c); [eauto|discriminate]. }
    assert (Hp : c <> "-"%char /\ c <> "+"%char). { split; intros ->; destruct Hd as [[? Hd]|Hd]; discriminate. }
    assert (Hok : under_ok (c :: s) = under_loop false SawStart (c :: s)).
    { unfold under_ok. destruct Hp as [Hp1 Hp2]. apply Ascii.eqb_neq in Hp1. apply Ascii.eqb_neq in Hp2. rewrite Hp1, Hp2. cbn [orb].
      destruct c as [[] [] [] [] [] [] [] []]; try reflexivity. congruence. }
    rewrite Hok in Hu. rewrite under_step in Hu. cbn [digits_from] in Ed. destruct (Ascii.eqb_spec c "_") as [->|Hc'].
    + rewrite under_not_seen in Hu. exfalso. rewrite (digits_mono _ _ _ _ _ _ Ed eq_refl) in Hu. discriminate (Hu eq_refl).
    + destruct (digit_in 10 c) as [d|] eqn:E1; [|discriminate]. rewrite (digit_seen 10 c d ltac:(unfold based; auto) E1 : seen_digit false c = true) in Hu.
      apply (lit_decimal c d); [apply digit_in_spec; unfold based; auto| |].
      * intros ->. apply digit_in_spec in E1; [|unfold based; auto]. destruct E1 as [_ [E1|E1]]; injection E1 as <-; congruence.
      * apply further_iff; [unfold based; auto|]. exists us. split; [exact Ed|exact Hu].
Qed.
Lemma literal_uint0 s n : literal s n -> uint0 s = Some n.
Proof.
  assert (Hb8 : based 8) by (unfold based; auto). assert (Hb10 : based 10) by (unfold based; auto).
  intros [c d r m Hd Hz Hf|r m Hf|x b r m Hx Hr Hf].
  - apply further_iff in Hf as (us & E & Hu); auto. apply digit_in_spec in Hd; auto.
    assert (Hc : c <> "0"%char) by (intros ->; vm_compute in Hd; congruence).
    assert (Hc' : c <> "_"%char) by (intros ->; discriminate). apply Ascii.eqb_neq in Hc'.
    assert (Es : split_base (c :: r) = (10, c :: r)). { unfold split_base. destruct c as [[] [] [] [] [] [] [] []]; try reflexivity. congruence. }
    assert (Hp1 : Ascii.eqb c "-" = false) by (apply Ascii.eqb_neq; intros ->; discriminate).
    assert (Hp2 : Ascii.eqb c "+" = false) by (apply Ascii.eqb_neq; intros ->; discriminate).
    assert (Hok : under_ok (c :: r) = under_loop false SawStart (c :: r)).
    { unfold under_ok. rewrite Hp1, Hp2. cbn [orb]. destruct c as [[] [] [] [] [] [] [] []]; try reflexivity. congruence. }
    unfold uint0. rewrite Es, Hok, under_step, (digit_seen 10 c d Hb10 Hd : seen_digit false c = true). cbn [digits_from]. rewrite Hc', Hd. change (0 * 10 + d) with d. rewrite E.
    destruct us; [|reflexivity]. cbn [andb]. rewrite (Hu eq_refl : under_loop false SawDigit r = true). reflexivity.
  - apply further_iff in Hf as (us & E & Hu); auto. change (B "0" ++ r) with ("0"%char :: r). unfold uint0.
    assert (Hnb : forall x r', r = x :: r' -> base_letter x = None).
    { intros x r' ->. destruct (base_letter x) as [b|] eqn:Eb; [|reflexivity]. exfalso. rewrite base_letter_cases in Eb. cbn [List.find fst snd digits_from] in Eb, E.
      repeat match goal with H : context [Ascii.eqb ?y x] |- _ => destruct (Ascii.eqb_spec y x) as [<-|?] end; try discriminate. }
    assert (Es : split_base ("0"%char :: r) = (8, r)).
    { unfold split_base. destruct r as [|x [|y r]]; try reflexivity. rewrite (Hnb x _ eq_refl). reflexivity. }
    rewrite Es, E. destruct us; [|reflexivity]. cbn [andb]. specialize (Hu eq_refl).
    replace (under_ok ("0"%char :: r)) with true; [reflexivity|]. unfold under_ok. cbn [Ascii.eqb eqb orb]. destruct r as [|x r]; [reflexivity|].
    rewrite (Hnb x r eq_refl), under_step. symmetry. exact Hu.
  - assert (H : exists l, x = ["0"%char; l] /\ base_letter l = Some b).
    { rewrite !elem_of_cons, elem_of_nil in Hx. repeat match goal with H : _ \/ _ |- _ => destruct H as [H|H] | H : (_, _) = (_, _) |- _ => injection H as ? ?; subst | H : False |- _ => destruct H end; eexists; split; reflexivity. }
    destruct H as (l & -> & Hl). pose proof (base_letter_based _ _ Hl) as Hb. apply further_iff in Hf as (us & E & Hu); auto.
    destruct r as [|y r]; [congruence|]. cbn [app]. unfold uint0. cbn [split_base]. rewrite Hl, E. destruct us; [|reflexivity]. cbn [andb].
    replace (under_ok ("0"%char :: l :: y :: r)) with true; [reflexivity|]. unfold under_ok. cbn [Ascii.eqb eqb orb]. rewrite Hl. symmetry. apply Hu. reflexivity.
Qed.
Lemma uint0_iff s n : uint0 s = Some n <-> literal s n.
Proof. split; [apply uint0_spec|apply literal_uint0]. Qed.

Lemma further_le b r n m : 0 <= b -> further b r n m -> 0 <= n -> 0 <= m.
Proof. intros Hb. induction 1 as [|c d r n m [Hd _] _ IH|c d r n m [Hd _] _ IH]; intros; auto; apply IH; nia. Qed.
Lemma literal_head s n : literal s n -> exists c r, s = c :: r /\ c <> "+"%char /\ c <> "-"%char.
Proof.
  intros [c d r m Hd Hz Hf|r m Hf|x b r m Hx Hr Hf].
  - exists c, r. split; [reflexivity|]. apply digit_in_spec in Hd; [|unfold based; auto]. split; intros ->; discriminate.
  - eexists _, _. split; [reflexivity|]. split; discriminate.
  - rewrite !elem_of_cons, elem_of_nil in Hx. repeat match goal with H : _ \/ _ |- _ => destruct H as [H|H] | H : (_, _) = (_, _) |- _ => injection H as ? ?; subst | H : False |- _ => destruct H end; eexists _, _; (split; [reflexivity|]); split; discriminate.
Qed.
Lemma literal_nonneg s n : literal s n -> 0 <= n.
Proof.
  intros [c d r m [Hd _] Hz Hf|r m Hf|x b r m Hx Hr Hf]; (eapply further_le; [|exact Hf|]); try lia.
  rewrite !elem_of_cons, elem_of_nil in Hx. repeat match goal with H : _ \/ _ |- _ => destruct H as [H|H] | H : (_, _) = (_, _) |- _ => injection H as ? ?; subst | H : False |- _ => destruct H end; lia.
Qed.
Theorem flag_int_spec s z : flag_int s = Some z <-> int_word s z.
Proof.
  unfold flag_int, int_word. split.
  - destruct s as [|c s]; [discriminate|]. destruct (Ascii.eqb_spec c "+") as [->|H1]; [|destruct (Ascii.eqb_spec c "-") as [->|H2]].
    all: destruct (uint0 _) as [n|] eqn:E; [|discriminate]; apply uint0_iff in E; pose proof (literal_nonneg _ _ E).
    all: cbn [negb andb orb]; destruct (_ <=? n) eqn:E1 || destruct (_ <? n) eqn:E1; cbn [orb]; [discriminate|]; intros [= <-].
    all: first [apply Z.leb_gt in E1|apply Z.ltb_ge in E1].
    + split; [lia|]. eexists _, _. split; [exact E|]. left. split; [right; reflexivity|reflexivity].
    + split; [lia|]. eexists _, _. split; [exact E|]. right. split; reflexivity.
    + split; [lia|]. eexists _, _. split; [exact E|]. left. split; [left; reflexivity|reflexivity].
  - intros (Hr & t & n & Hl & Hs). pose proof (literal_nonneg _ _ Hl). pose proof Hl as Hu. apply uint0_iff in Hu.
    destruct (literal_head _ _ Hl) as (c & r & Et & H1 & H2). apply Ascii.eqb_neq in H1. apply Ascii.eqb_neq in H2.
    destruct Hs as [[[->| ->] ->]|[-> ->]].
    + subst t. cbv zeta beta iota. rewrite H1, H2, Hu. cbn [negb andb orb]. destruct (Z.leb_spec (2 ^ 63) n); [lia|]. reflexivity.
    + change (B "+" ++ t) with ("+"%char :: t). cbn [Ascii.eqb eqb]. rewrite Hu. cbn [negb andb orb]. destruct (Z.leb_spec (2 ^ 63) n); [lia|]. reflexivity.
    + change (B "-" ++ t) with ("-"%char :: t). cbn [Ascii.eqb eqb]. rewrite Hu. cbn [negb andb orb]. destruct (Z.ltb_spec (2 ^ 63) n); [lia|]. reflexivity.
Qed.
