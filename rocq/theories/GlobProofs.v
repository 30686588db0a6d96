(** util.PattenMatch decides the documented pattern language. *)
From Verif Require Export Glob SpecGlob.

Lemma code_eqb a b : (code a =? code b)%N = true <-> a = b.
Proof.
  rewrite N.eqb_eq. split; [|intros ->; auto]. intros H. unfold code in H.
  rewrite <- (ascii_N_embedding a), <- (ascii_N_embedding b), H. auto.
Qed.
Lemma code_neqb a b : (code a =? code b)%N = false <-> a <> b.
Proof. rewrite <- code_eqb. destruct (_ =? _)%N; split; congruence. Qed.
Lemma not_char x c : x <> c -> (code x =? code c)%N = false.
Proof. apply code_neqb. Qed.

(** ** The loops terminate *)
Lemma skip_stars_len p : (length (skip_stars p) <= length p)%nat.
Proof. induction p as [|c p IH]; cbn; auto. destruct (is_star c); cbn; lia. Qed.
Lemma class_loop_len f : forall prev p c m cl m' rest, class_loop f prev p c m = Some (cl, m', rest) -> (length rest <= length p)%nat.
Proof.
  induction f as [|f IH]; cbn; intros prev p c m cl m' rest H; [discriminate|].
  destruct p as [|x r]; [injection H as <- <- <-; auto|].
  destruct (code x =? 93)%N; [injection H as <- <- <-; auto|].
  destruct (code x =? 45)%N.
  - destruct r as [|e r']; [discriminate|]. apply IH in H. cbn. lia.
  - apply IH in H. cbn. lia.
Qed.
Lemma star_loop_fuel go q p : (forall s, go p s <> GFuel) -> forall s, star_loop go q p s <> GFuel.
Proof.
  intros Hg. induction s as [|c s IH]; cbn; [discriminate|]. destruct (code c =? code q)%N; auto.
  specialize (Hg s). destruct (go p s) as [[]| |]; auto; discriminate.
Qed.
Lemma patten_match_fuel f : forall p s, (length p < f)%nat -> patten_match f p s <> GFuel.
Proof.
  induction f as [|f IH]; intros p s Hl; [lia|]. cbn [patten_match]. destruct p as [|x p']; [discriminate|]. destruct s as [|c s']; [discriminate|].
  cbn in Hl. destruct (code x =? 63)%N; [apply IH; lia|]. destruct (is_star x).
  { pose proof (skip_stars_len p') as Hk. destruct (skip_stars p') as [|q p'']; [discriminate|]. cbn in Hk.
    apply star_loop_fuel. intros s. apply IH. lia. }
  destruct (code x =? 91)%N.
  { destruct p' as [|y r]; [discriminate|]. destruct (code y =? 94)%N eqn:Ey.
    - destruct (class_loop (S (length r)) y r c false) as [[[[] m] rest]|] eqn:E; try discriminate.
      apply class_loop_len in E. destruct (negb m); [|discriminate]. apply IH. rewrite skipn_length. cbn in *. lia.
    - destruct (class_loop (S (length (y :: r))) x (y :: r) c false) as [[[[] m] rest]|] eqn:E; try discriminate.
      apply class_loop_len in E. destruct m; [|discriminate]. apply IH. rewrite skipn_length. cbn in *. lia. }
  destruct (code x =? code c)%N; [apply IH; lia|discriminate].
Qed.
Theorem glob_terminates p s : glob p s <> GFuel.
Proof. apply patten_match_fuel. lia. Qed.

(** ** When it panics *)
Lemma class_loop_panic f : forall prev p c m, (length p < f)%nat -> class_loop f prev p c m = None -> exists p', p = p' ++ B "-".
Proof.
  induction f as [|f IH]; cbn [class_loop]; intros prev p c m Hl H; [lia|].
  destruct p as [|x r]; [discriminate|]. cbn in Hl.
  destruct (code x =? 93)%N; [discriminate|]. destruct (code x =? 45)%N eqn:Ex.
  - destruct r as [|e r'].
    + exists []. cbn. f_equal. apply (code_eqb x "-"%char) in Ex. auto.
    + apply IH in H as [p' ->]; [|cbn in Hl; lia]. exists (x :: e :: p'). auto.
  - apply IH in H as [p' ->]; [|lia]. exists (x :: p'). auto.
Qed.
Lemma class_loop_suffix f : forall prev p c m cl m' rest, class_loop f prev p c m = Some (cl, m', rest) -> exists p', p = p' ++ rest.
Proof.
  induction f as [|f IH]; cbn; intros prev p c m cl m' rest H; [discriminate|].
  destruct p as [|x r]; [injection H as <- <- <-; exists []; auto|].
  destruct (code x =? 93)%N; [injection H as <- <- <-; exists []; auto|].
  destruct (code x =? 45)%N.
  - destruct r as [|e r']; [discriminate|]. apply IH in H as [p' ->]. exists (x :: e :: p'). auto.
  - apply IH in H as [p' ->]. exists (x :: p'). auto.
Qed.
Lemma skip_stars_suffix p : exists p', p = p' ++ skip_stars p.
Proof. induction p as [|c p [p' IH]]; cbn; [exists []; auto|]. destruct (is_star c); [exists (c :: p'); cbn; congruence|exists []; auto]. Qed.
Lemma star_loop_panic go q p s : star_loop go q p s = GPanic -> exists s', go p s' = GPanic.
Proof.
  induction s as [|c s IH]; cbn; [discriminate|]. destruct (code c =? code q)%N; auto.
  destruct (go p s) as [[]| |] eqn:E; try discriminate; eauto.
Qed.
Definition bad_tail (p : bytes) : Prop := exists u v, p = u ++ B "[" ++ v ++ B "-".
Lemma bad_tail_app u p : bad_tail p -> bad_tail (u ++ p).
Proof. intros (a & b & ->). exists (u ++ a), b. rewrite <- app_assoc. auto. Qed.
Lemma patten_match_panic f : forall p s, patten_match f p s = GPanic -> bad_tail p.
Proof.
  induction f as [|f IH]; intros p s; cbn [patten_match]; [discriminate|]. destruct p as [|x p']; [discriminate|]. destruct s as [|c s']; [discriminate|].
  assert (Hx : forall q, bad_tail q -> (exists u, p' = u ++ q) -> bad_tail (x :: p')).
  { intros q Hq [u ->]. apply (bad_tail_app (x :: u)); auto. }
  destruct (code x =? 63)%N; [intros H; apply IH in H; apply (Hx p'); auto; exists []; auto|]. destruct (is_star x).
  { destruct (skip_stars_suffix p') as [u Hu]. destruct (skip_stars p') as [|q p'']; [discriminate|].
    intros H. apply star_loop_panic in H as [s0 H]. apply IH in H. apply (Hx p''); auto. exists (u ++ [q]). rewrite <- app_assoc. auto. }
  destruct (code x =? 91)%N eqn:Eb.
  { apply (code_eqb x "["%char) in Eb. subst x. destruct p' as [|y r]; [discriminate|]. destruct (code y =? 94)%N eqn:Ey.
    - destruct (class_loop (S (length r)) y r c false) as [[[[] m] rest]|] eqn:E; try discriminate.
      + apply class_loop_suffix in E as [u ->]. destruct (negb m); [|discriminate]. intros H. apply IH in H.
        apply (Hx (drop 1 rest)); auto. exists (y :: u ++ take 1 rest). cbn. rewrite <- app_assoc. destruct rest; auto.
      + intros _. apply class_loop_panic in E as [p' ->]; [|lia]. exists [], (y :: p'). auto.
    - destruct (class_loop (S (length (y :: r))) "["%char (y :: r) c false) as [[[[] m] rest]|] eqn:E; try discriminate.
      + apply class_loop_suffix in E as [u Eu]. destruct m; [|discriminate]. intros H. apply IH in H.
        apply (Hx (drop 1 rest)); auto. rewrite Eu. exists (u ++ take 1 rest). rewrite <- app_assoc. destruct rest; auto.
      + intros _. apply class_loop_panic in E as [p' E]; [|lia]. exists [], p'. cbn. rewrite E. auto. }
  destruct (code x =? code c)%N; [|discriminate]. intros H; apply IH in H; apply (Hx p'); auto; exists []; auto.
Qed.
Theorem glob_panics p s : glob p s = GPanic -> exists u v, p = u ++ B "[" ++ v ++ B "-".
Proof. apply patten_match_panic. Qed.

(** ** Bracket expressions *)
Lemma in_class_cons c i l : in_class c (i :: l) <-> in_item c i \/ in_class c l.
Proof.
  unfold in_class. split.
  - intros (j & [->|H] & Hj); eauto.
  - intros [H|(j & H & Hj)]; [exists i|exists j]; cbn; auto.
Qed.
Lemma class_loop_spec l : Forall item_ok l -> forall f prev p c m, (length (concat (map show_item l) ++ B "]" ++ p) < f)%nat ->
  exists m', class_loop f prev (concat (map show_item l) ++ B "]" ++ p) c m = Some (true, m', B "]" ++ p) /\
    (m' = true <-> m = true \/ in_class c l).
Proof.
  induction 1 as [|i l Hi _ IH]; intros f prev p c m Hf.
  - destruct f as [|f]; [cbn in Hf; lia|]. cbn. exists m. split; auto. split; auto. intros [H|(i & [] & _)]; auto.
  - cbn [map concat] in *. rewrite <- app_assoc in *. rewrite app_length in Hf. destruct i as [x|a b]; cbn [show_item] in *.
    + destruct Hi as [H1 H2]. destruct f as [|f]; [lia|]. cbn [app class_loop].
      rewrite (not_char x "]" H1 : (code x =? 93)%N = false), (not_char x "-" H2 : (code x =? 45)%N = false).
      destruct (IH f x p c (if (code x =? code c)%N then true else m)) as (m' & E & Hm); [cbn in Hf |- *; lia|].
      exists m'. split; [exact E|]. rewrite Hm, in_class_cons. cbn.
      destruct (code x =? code c)%N eqn:Ec; [apply code_eqb in Ec; subst; tauto|]. apply code_neqb in Ec.
      split; [tauto|]. intros [?|[?|?]]; auto; congruence.
    + destruct Hi as (H1 & H2 & H3). destruct f as [|[|f]]; [cbn in Hf; lia|cbn in Hf; lia|]. cbn [app class_loop].
      rewrite (not_char a "]" H1 : (code a =? 93)%N = false), (not_char a "-" H2 : (code a =? 45)%N = false).
      change (code "-" =? 93)%N with false. change (code "-" =? 45)%N with true. cbn [B list_ascii_of_string app].
      destruct (IH f b p c (if ((code a <=? code c) && (code c <=? code b))%N then true else if (code a =? code c)%N then true else m)) as (m' & E & Hm);
        [cbn in Hf |- *; lia|].
      exists m'. split; [exact E|]. rewrite Hm, in_class_cons. cbn.
      destruct (N.leb_spec (code a) (code c)), (N.leb_spec (code c) (code b)); cbn.
      * tauto.
      * destruct (code a =? code c)%N eqn:Ec; [apply code_eqb in Ec; subst; lia|]. split; [tauto|]. intros [?|[?|?]]; auto; lia.
      * destruct (code a =? code c)%N eqn:Ec; [apply code_eqb in Ec; subst; lia|]. split; [tauto|]. intros [?|[?|?]]; auto; lia.
      * destruct (code a =? code c)%N eqn:Ec; [apply code_eqb in Ec; subst; lia|]. split; [tauto|]. intros [?|[?|?]]; auto; lia.
Qed.

(** ** Stars *)
Fixpoint strip (ts : list tok) : list tok := match ts with TStar :: r => strip r | _ => ts end.
Lemma is_star_spec c : is_star c = true <-> c = "*"%char.
Proof. apply (code_eqb c "*"%char). Qed.
Lemma skip_stars_show ts : Forall tok_ok ts -> skip_stars (show ts) = show (strip ts).
Proof.
  induction 1 as [|t ts Ht _ IH]; auto. destruct t as [| |c|neg l]; auto.
  cbn. destruct (is_star c) eqn:E; auto. apply is_star_spec in E. destruct Ht as (_ & Ht & _). congruence.
Qed.
Lemma strip_ok ts : Forall tok_ok ts -> Forall tok_ok (strip ts).
Proof. induction 1 as [|t ts Ht Hts IH]; [constructor|]. destruct t; auto; constructor; auto. Qed.
Lemma strip_stars ts : stars_ok ts -> stars_ok (strip ts).
Proof. induction ts as [|t ts IH]; cbn; auto. destruct t; cbn; auto. intros [H _]. auto. Qed.
Lemma strip_next ts : stars_ok (TStar :: ts) -> strip ts = [] \/ exists q r, strip ts = TLit q :: r.
Proof.
  induction ts as [|t ts IH]; [left; auto|]. intros [H1 H2]. destruct t as [| |c|neg l]; cbn; [destruct H2| |eauto|destruct H2].
  apply IH. auto.
Qed.
Lemma star_matches ts s : pat_matches (TStar :: ts) s <-> exists pre s', s = pre ++ s' /\ pat_matches ts s'.
Proof. split; [intros H; inversion H; subst; eauto|]. intros (pre & s' & -> & H). constructor; auto. Qed.
Lemma strip_matches ts s : pat_matches (TStar :: ts) s <-> pat_matches (TStar :: strip ts) s.
Proof.
  revert s. induction ts as [|t ts IH]; [reflexivity|]. intros s. destruct t; try reflexivity. cbn [strip]. rewrite <- IH. split.
  - intros H. apply star_matches in H as (p1 & s1 & -> & H). apply star_matches in H as (p2 & s2 & -> & H).
    rewrite app_assoc. constructor; auto.
  - intros H. apply (mt_star []). auto.
Qed.
Lemma all_stars_matches ts : Forall tok_ok ts -> all_stars (show ts) = true <-> pat_matches ts [].
Proof.
  induction 1 as [|t ts Ht _ IH]; [split; [constructor|auto]|]. destruct t as [| |c|neg l].
  - split; [discriminate|intros H; inversion H].
  - change (all_stars (show (TStar :: ts))) with (all_stars (show ts)). rewrite IH. split.
    + intros H. apply (mt_star []). auto.
    + intros H. apply star_matches in H as (p1 & s1 & E & H). symmetry in E. apply app_eq_nil in E as [-> ->]. auto.
  - split; [|intros H; inversion H]. change (all_stars (show (TLit c :: ts))) with (is_star c && all_stars (show ts)).
    intros H. apply andb_true_iff in H as [H _]. apply is_star_spec in H. destruct Ht as (_ & Ht & _). congruence.
  - split; [discriminate|intros H; inversion H].
Qed.
Lemma star_loop_spec go q p ts : (forall s, exists b, go p s = GOk b /\ (b = true <-> pat_matches ts s)) ->
  forall s, exists b, star_loop go q p s = GOk b /\ (b = true <-> exists pre s', s = pre ++ q :: s' /\ pat_matches ts s').
Proof.
  intros Hg. induction s as [|c s (b & Eb & Hb)]; cbn.
  - exists false. split; auto. split; [discriminate|]. intros ([|] & s' & E & _); discriminate.
  - destruct (code c =? code q)%N eqn:Ec.
    + apply code_eqb in Ec. subst c. destruct (Hg s) as (b1 & E1 & H1). rewrite E1. destruct b1.
      * exists true. split; auto. split; auto. intros _. exists [], s. split; auto. apply H1; auto.
      * exists b. split; auto. rewrite Hb. split; [intros (pre & s' & -> & H); exists (q :: pre), s'; auto|].
        intros ([|x pre] & s' & E & H); injection E as; subst; [|eauto]. apply H1 in H. discriminate.
    + apply code_neqb in Ec. exists b. split; auto. rewrite Hb. split; [intros (pre & s' & -> & H); exists (c :: pre), s'; auto|].
      intros ([|x pre] & s' & E & H); injection E as; subst; [congruence|eauto].
Qed.

(** ** The whole *)
Lemma match_spec f : forall ts s, Forall tok_ok ts -> stars_ok ts -> (length (show ts) < f)%nat ->
  exists b, patten_match f (show ts) s = GOk b /\ (b = true <-> pat_matches ts s).
Proof.
  induction f as [|f IH]; intros ts s Hok Hst Hl; [lia|].
  destruct ts as [|t ts].
  { cbn. destruct s as [|c s]; eexists; (split; [reflexivity|]); (split; [|intros H; inversion H; auto]); [constructor|discriminate]. }
  destruct s as [|c s].
  { exists (all_stars (show (t :: ts))). split; [|apply all_stars_matches; auto].
    cbn [patten_match]. destruct (show (t :: ts)) eqn:E; auto. }
  apply List.Forall_cons_iff in Hok as [Ht Hok].
  destruct t as [| |x|neg l].
  - cbn. cbn in Hl, Hst. destruct (IH ts s Hok Hst) as (b & Eb & Hb); [unfold show; lia|]. exists b. split; [exact Eb|]. rewrite Hb.
    split; [constructor; auto|intros H; inversion H; auto].
  - cbn in Hl. change (show (TStar :: ts)) with ("*"%char :: show ts). cbn [patten_match].
    change (code "*" =? 63)%N with false. change (is_star "*") with true. cbn [negb].
    rewrite skip_stars_show by auto. setoid_rewrite (strip_matches ts (c :: s)).
    destruct (strip_next ts Hst) as [E|(q & r & E)]; rewrite E; cbn [show map concat show_tok app].
    + exists true. split; auto. split; auto. intros _. rewrite <- (app_nil_r (c :: s)). apply mt_star. constructor.
    + assert (Hr : Forall tok_ok (TLit q :: r)) by (rewrite <- E; apply strip_ok; auto).
      assert (Hsr : stars_ok (TLit q :: r)) by (rewrite <- E; apply strip_stars; destruct Hst; auto).
      apply List.Forall_cons_iff in Hr as [_ Hr].
      pose proof (skip_stars_len (show ts)) as Hk. rewrite skip_stars_show, E in Hk by auto. cbn in Hk.
      destruct (star_loop_spec (patten_match f) q (show r) r) with (s := c :: s) as (b & Eb & Hb).
      { intros s0. apply IH; auto. unfold show in *. cbn in *. lia. }
      exists b. split; [exact Eb|]. rewrite Hb, star_matches. split.
      * intros (pre & s' & -> & H). exists pre, (q :: s'). split; auto. constructor; auto.
      * intros (pre & s' & E1 & H). inversion H; subst. rewrite E1. eauto.
  - destruct Ht as (H1 & H2 & H3). change (show (TLit x :: ts)) with (x :: show ts) in *. cbn [patten_match].
    rewrite (not_char x "?" H1 : (code x =? 63)%N = false). destruct (is_star x) eqn:Es; [apply is_star_spec in Es; congruence|].
    rewrite (not_char x "[" H3 : (code x =? 91)%N = false). cbn in Hst, Hl.
    destruct (code x =? code c)%N eqn:Ec.
    + apply code_eqb in Ec. subst c. destruct (IH ts s Hok Hst) as (b & Eb & Hb); [lia|]. exists b. split; auto. rewrite Hb.
      split; [constructor; auto|intros H; inversion H; auto].
    + apply code_neqb in Ec. exists false. split; auto. split; [discriminate|]. intros H; inversion H; congruence.
  - destruct Ht as [Hi Hf]. cbn in Hst.
    assert (Es : show (TClass neg l :: ts) = "["%char :: (if neg then B "^" else []) ++ concat (map show_item l) ++ B "]" ++ show ts).
    { unfold show. cbn. rewrite <- !app_assoc. auto. }
    rewrite Es in *. clear Es. cbn in Hl.
    assert (Hne : exists y r, (if neg then B "^" else []) ++ concat (map show_item l) ++ B "]" ++ show ts = y :: r /\
      (code y =? 94)%N = neg /\ (neg = true -> r = concat (map show_item l) ++ B "]" ++ show ts)).
    { destruct neg; cbn; [eexists _, _; split; [reflexivity|split; auto]|].
      destruct l as [|[y|y z] l]; cbn; eexists _, _; (split; [reflexivity|]); split; auto; try discriminate; apply (code_neqb y "^"%char); auto. }
    destruct Hne as (y & r & Ey & Hy & Hr). cbn [patten_match].
    change (code "[" =? 63)%N with false. change (is_star "[") with false. change (code "[" =? 91)%N with true.
    cbn [negb]. rewrite Ey. rewrite Hy.
    set (body := concat (map show_item l) ++ B "]" ++ show ts) in *.
    assert (Hb : (if neg then (y, r) else ("["%char, y :: r)) = ((if neg then y else "["%char), body)).
    { destruct neg; [rewrite (Hr eq_refl); auto|]. rewrite <- Ey. auto. }
    rewrite Hb. destruct (class_loop_spec l Hi (S (length body)) (if neg then y else "["%char) (show ts) c false) as (m & Em & Hm); [unfold body; lia|].
    fold body in Em. rewrite Em.
    assert (Hl2 : (length (show ts) < f)%nat).
    { unfold body in Hl. rewrite !app_length in Hl. cbn in Hl. lia. }
    destruct (IH ts s Hok Hst Hl2) as (b & Eb & Hbb). change (drop 1 (B "]" ++ show ts)) with (show ts).
    destruct neg, m; cbn [negb].
    + exists false. split; auto. split; [discriminate|]. intros H; inversion H; subst. destruct Hm as [Hm _]. destruct (Hm eq_refl); [discriminate|tauto].
    + exists b. split; auto. rewrite Hbb. split; [|intros H; inversion H; auto]. intros H. constructor; auto.
      intros Hc. destruct Hm as [_ Hm]. discriminate Hm; auto.
    + exists b. split; auto. rewrite Hbb. split; [|intros H; inversion H; auto]. intros H. constructor; auto.
      destruct Hm as [Hm _]. destruct (Hm eq_refl); [discriminate|auto].
    + exists false. split; auto. split; [discriminate|]. intros H; inversion H; subst. destruct Hm as [_ Hm]. discriminate Hm; auto.
Qed.
Theorem glob_spec p ts s : pattern p ts -> stars_ok ts -> exists b, glob p s = GOk b /\ (b = true <-> pat_matches ts s).
Proof. intros [-> Hok] Hst. apply match_spec; auto. Qed.
