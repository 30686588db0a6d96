(** util.PattenMatch on every pattern. *)
From Verif Require Export GlobProofs.

Lemma class_loop_items l : Forall citem_ok l -> forall f prev b c m, (length (show_citems l ++ b) < f)%nat ->
  exists f' prev' m', class_loop f prev (show_citems l ++ b) c m = class_loop f' prev' b c m' /\ (length b < f')%nat /\
    (m' = true <-> m = true \/ has prev l c).
Proof.
  induction 1 as [|i l Hi _ IH]; intros f prev b c m Hf.
  - exists f, prev, m. split; [reflexivity|]. split; [exact Hf|]. cbn. tauto.
  - unfold show_citems in *. cbn [map concat] in *. rewrite <- app_assoc in *. destruct i as [x|e]; cbn [show_citem] in *.
    + destruct Hi as [H1 H2]. destruct f as [|f]; [cbn in Hf; lia|]. cbn [app class_loop].
      rewrite (not_char x "]" H1 : (code x =? 93)%N = false), (not_char x "-" H2 : (code x =? 45)%N = false).
      destruct (IH f x b c (if (code x =? code c)%N then true else m)) as (f' & p' & m' & E & Hl & Hm); [cbn in Hf; lia|].
      exists f', p', m'. split; [exact E|]. split; [exact Hl|]. rewrite Hm. cbn [has].
      destruct (code x =? code c)%N eqn:Ec; [apply code_eqb in Ec; subst; tauto|]. apply code_neqb in Ec.
      split; [tauto|]. intros [?|[?|?]]; auto; congruence.
    + destruct f as [|f]; [cbn in Hf; lia|]. cbn [B list_ascii_of_string app class_loop].
      change (code "-" =? 93)%N with false. change (code "-" =? 45)%N with true. cbv iota.
      destruct (IH f e b c (if ((code prev <=? code c) && (code c <=? code e))%N then true else m)) as (f' & p' & m' & E & Hl & Hm); [cbn in Hf; lia|].
      exists f', p', m'. split; [exact E|]. split; [exact Hl|]. rewrite Hm. cbn [has].
      destruct (N.leb_spec (code prev) (code c)), (N.leb_spec (code c) (code e)); cbn [andb]; try tauto.
      * split; [tauto|]. intros [?|[?|?]]; auto; lia.
      * split; [tauto|]. intros [?|[?|?]]; auto; lia.
      * split; [tauto|]. intros [?|[?|?]]; auto; lia.
Qed.
(** The three ways in which a bracket expression can end. *)
Lemma class_closed l b f prev c m : Forall citem_ok l -> (length (show_citems l ++ B "]" ++ b) < f)%nat ->
  exists m', class_loop f prev (show_citems l ++ B "]" ++ b) c m = Some (true, m', B "]" ++ b) /\ (m' = true <-> m = true \/ has prev l c).
Proof.
  intros Hl Hf. destruct (class_loop_items l Hl f prev (B "]" ++ b) c m Hf) as (f' & p' & m' & E & Hl' & Hm).
  exists m'. rewrite E. split; [|exact Hm]. destruct f' as [|f']; [cbn in Hl'; lia|]. reflexivity.
Qed.
Lemma class_open l f prev c m : Forall citem_ok l -> (length (show_citems l) < f)%nat ->
  exists m', class_loop f prev (show_citems l) c m = Some (false, m', []).
Proof.
  intros Hl Hf. rewrite <- (app_nil_r (show_citems l)) in *. destruct (class_loop_items l Hl f prev [] c m Hf) as (f' & p' & m' & E & Hl' & Hm).
  exists m'. rewrite E. destruct f' as [|f']; [cbn in Hl'; lia|]. reflexivity.
Qed.
Lemma class_dangling l f prev c m : Forall citem_ok l -> (length (show_citems l ++ B "-") < f)%nat ->
  class_loop f prev (show_citems l ++ B "-") c m = None.
Proof.
  intros Hl Hf. destruct (class_loop_items l Hl f prev (B "-") c m Hf) as (f' & p' & m' & E & Hl' & Hm).
  rewrite E. destruct f' as [|f']; [cbn in Hl'; lia|]. reflexivity.
Qed.

Lemma star_loop_true go q p s : (forall s, go p s <> GPanic) -> (forall s, go p s <> GFuel) ->
  star_loop go q p s = GOk true <-> exists pre s', s = pre ++ q :: s' /\ go p s' = GOk true.
Proof.
  intros Hp Hf. induction s as [|c s IH]; cbn [star_loop].
  - split; [discriminate|]. intros (pre & s' & E & _). destruct pre; discriminate E.
  - assert (Hrec : (exists pre s', c :: s = pre ++ q :: s' /\ go p s' = GOk true) <->
      (c = q /\ go p s = GOk true) \/ star_loop go q p s = GOk true).
    { rewrite IH. split.
      - intros (pre & s' & E & H). destruct pre as [|x pre]; cbn in E; injection E as -> ->; [left; auto|right; eauto].
      - intros [[-> H]|(pre & s' & -> & H)]; [exists [], s; auto|exists (c :: pre), s'; auto]. }
    rewrite Hrec. destruct (code c =? code q)%N eqn:E.
    + apply code_eqb in E. specialize (Hp s). specialize (Hf s). destruct (go p s) as [[]| |]; try congruence; [tauto|].
      split; [tauto|]. intros [[_ H]|H]; [congruence|exact H].
    + apply code_neqb in E. tauto.
Qed.
Lemma star_loop_breaks go q p s : (forall s, go p s <> GOk true) -> (forall s, go p s <> GFuel) ->
  star_loop go q p s = GPanic <-> exists pre s', s = pre ++ q :: s' /\ go p s' = GPanic.
Proof.
  intros Hp Hf. induction s as [|c s IH]; cbn [star_loop].
  - split; [discriminate|]. intros (pre & s' & E & _). destruct pre; discriminate E.
  - assert (Hrec : (exists pre s', c :: s = pre ++ q :: s' /\ go p s' = GPanic) <->
      (c = q /\ go p s = GPanic) \/ star_loop go q p s = GPanic).
    { rewrite IH. split.
      - intros (pre & s' & E & H). destruct pre as [|x pre]; cbn in E; injection E as -> ->; [left; auto|right; eauto].
      - intros [[-> H]|(pre & s' & -> & H)]; [exists [], s; auto|exists (c :: pre), s'; auto]. }
    rewrite Hrec. destruct (code c =? code q)%N eqn:E.
    + apply code_eqb in E. specialize (Hp s). specialize (Hf s). destruct (go p s) as [[]| |]; try congruence; [|tauto].
      split; [tauto|]. intros [[_ H]|H]; [congruence|exact H].
    + apply code_neqb in E. tauto.
Qed.
Lemma star_loop_no_true go q p s : (forall s, go p s <> GOk true) -> star_loop go q p s <> GOk true.
Proof.
  intros Hp. induction s as [|c s IH]; cbn [star_loop]; [discriminate|]. destruct (code c =? code q)%N; auto.
  specialize (Hp s). destruct (go p s) as [[]| |]; auto; discriminate.
Qed.
Lemma star_loop_no_panic go q p s : (forall s, go p s <> GPanic) -> star_loop go q p s <> GPanic.
Proof.
  intros Hp. induction s as [|c s IH]; cbn [star_loop]; [discriminate|]. destruct (code c =? code q)%N; auto.
  specialize (Hp s). destruct (go p s) as [[]| |]; auto; discriminate.
Qed.

Lemma skip_replicate n q p : q <> "*"%char -> skip_stars (replicate n "*"%char ++ q :: p) = q :: p.
Proof.
  intros H. induction n as [|n IH]; cbn; [|exact IH]. destruct (is_star q) eqn:E; [|reflexivity]. apply is_star_spec in E. congruence.
Qed.
Lemma skip_all n : skip_stars (replicate n "*"%char) = [].
Proof. induction n; auto. Qed.
Lemma all_stars_replicate n : all_stars (replicate n "*"%char) = true.
Proof. induction n; auto. Qed.
Lemma not_all_stars n q p : q <> "*"%char -> all_stars (replicate n "*"%char ++ q :: p) = false.
Proof.
  intros H. induction n as [|n IH]; cbn; [|exact IH]. destruct (is_star q) eqn:E; [|reflexivity]. apply is_star_spec in E. congruence.
Qed.

(** With nothing left, what is left of the pattern must be stars. *)
Lemma eats_nothing ts r : eats ts [] r -> ts = [] /\ r = [].
Proof. intros H. inversion H; subst; auto. destruct pre; discriminate. Qed.
Lemma eats_inv_class neg l ts c s r : eats (PClass neg l :: ts) (c :: s) r <->
  (if neg then ~ has (before_first neg) l c else has (before_first neg) l c) /\ eats ts s r.
Proof. split; [intros H; inversion H; subst; auto|intros [H1 H2]; constructor; auto]. Qed.

Definition judged (f : nat) (p : bytes) (ts : list ptok) (e : pend) : Prop := forall s,
  (patten_match f p s = GOk true <-> accepts ts e s) /\ (patten_match f p s = GPanic <-> breaks ts e s).

Lemma accepts_one t ts e c s (Q : Prop) : (forall r, eats (t :: ts) (c :: s) r <-> Q /\ eats ts s r) ->
  (accepts (t :: ts) e (c :: s) <-> Q /\ accepts ts e s) /\ (breaks (t :: ts) e (c :: s) <-> Q /\ breaks ts e s).
Proof.
  intros H. unfold accepts, breaks. split.
  - split.
    + intros [[-> H1]|[-> [r H1]]]; apply H in H1 as [HQ H1]; eauto.
    + intros [HQ [[-> H1]|[-> [r H1]]]]; [left|right]; split; auto; [apply H; auto|exists r; apply H; auto].
  - split.
    + intros (-> & x & r & H1). apply H in H1 as [HQ H1]. eauto.
    + intros (HQ & -> & x & r & H1). split; auto. exists x, r. apply H. auto.
Qed.
Lemma accepts_nil t ts e : ~ accepts (t :: ts) e [] /\ ~ breaks (t :: ts) e [].
Proof.
  split.
  - intros [[_ H]|[_ [r H]]]; apply eats_nothing in H as [? _]; discriminate.
  - intros [_ (x & r & H)]. apply eats_nothing in H as [? _]. discriminate.
Qed.
(** A token that eats one character. *)
Lemma judged_one f p p0 t ts e (ok : ascii -> bool) :
  (forall c s, patten_match f p0 (c :: s) = if ok c then patten_match (pred f) p s else GOk false) ->
  patten_match f p0 [] = GOk false ->
  (forall c s r, eats (t :: ts) (c :: s) r <-> ok c = true /\ eats ts s r) ->
  judged (pred f) p ts e -> judged f p0 (t :: ts) e.
Proof.
  intros H1 H2 H3 H s. destruct s as [|c s].
  - rewrite H2. destruct (accepts_nil t ts e). split; split; (discriminate || tauto).
  - rewrite H1. destruct (accepts_one t ts e c s (ok c = true) (H3 c s)) as [A1 A2]. rewrite A1, A2.
    destruct (ok c); [destruct (H s) as [B1 B2]; rewrite B1, B2; tauto|]. split; split; intros; try discriminate; destruct H0; discriminate.
Qed.

Lemma judged_any f p ts e : judged f p ts e -> judged (S f) (B "?" ++ p) (PAny :: ts) e.
Proof.
  intros H. apply (judged_one (S f) p _ PAny ts e (fun _ => true)); auto.
  intros c s r. split; [intros E; inversion E; subst; auto|intros [_ E]; constructor; auto].
Qed.
Lemma judged_lit c f p ts e : c <> "?"%char -> c <> "*"%char -> c <> "["%char -> judged f p ts e -> judged (S f) (c :: p) (PLit c :: ts) e.
Proof.
  intros H1 H2 H3 H. assert (E1 : (code c =? 63)%N = false) by (apply (not_char c "?"); auto).
  assert (E2 : is_star c = false) by (destruct (is_star c) eqn:E; auto; apply is_star_spec in E; congruence).
  assert (E3 : (code c =? 91)%N = false) by (apply (not_char c "["); auto).
  apply (judged_one (S f) p _ (PLit c) ts e (fun x => (code c =? code x)%N)); auto.
  - intros x s. cbn [patten_match pred]. rewrite E1, E2, E3. reflexivity.
  - cbn [patten_match all_stars forallb]. rewrite E2. reflexivity.
  - intros x s r. rewrite code_eqb. split; [intros E; inversion E; subst; auto|intros [-> E]; constructor; auto].
Qed.
Lemma judged_class neg l f p ts e : Forall citem_ok l -> opens neg (show_citems l) -> judged f p ts e ->
  judged (S f) (opening neg ++ show_citems l ++ B "]" ++ p) (PClass neg l :: ts) e.
Proof.
  intros Hl Ho H.
  set (F := S (length (show_citems l ++ B "]" ++ p))).
  apply (judged_one (S f) p _ _ ts e (fun c => match class_loop F (before_first neg) (show_citems l ++ B "]" ++ p) c false with
    Some (_, m, _) => if neg then negb m else m | None => false end)); auto.
  - intros c s. destruct (class_closed l p F (before_first neg) c false Hl) as (m & E & Hm); [unfold F; lia|].
    rewrite E. destruct neg; cbn [opening B list_ascii_of_string app].
    + cbn [patten_match]. change (code "[" =? 63)%N with false. change (is_star "[") with false. change (code "[" =? 91)%N with true.
      change (code "^" =? 94)%N with true. cbv iota. cbn [before_first] in E.
      unfold F in E. change (B "]" ++ p) with ("]"%char :: p) in E. rewrite E. cbn [drop pred]. destruct m; reflexivity.
    + cbn [patten_match]. change (code "[" =? 63)%N with false. change (is_star "[") with false. change (code "[" =? 91)%N with true.
      cbv iota. cbn [before_first] in E.
      destruct (show_citems l ++ "]"%char :: p) as [|y r] eqn:Eb; [destruct (show_citems l); discriminate|].
      assert (Ey : (code y =? 94)%N = false).
      { apply (not_char y "^"). intros ->. specialize (Ho eq_refl). destruct (show_citems l); [discriminate|]. cbn in Ho. injection Eb as -> _. congruence. }
      rewrite Ey. unfold F in E. change (B "]" ++ p) with ("]"%char :: p) in E. rewrite Eb in E. rewrite E. cbn [drop pred]. destruct m; reflexivity.
  - destruct neg; reflexivity.
  - intros c s r. destruct (class_closed l p F (before_first neg) c false Hl) as (m & E & Hm); [unfold F; lia|]. rewrite E, eats_inv_class.
    assert (Hm' : m = true <-> has (before_first neg) l c) by (rewrite Hm; split; [intros [?|?]; [discriminate|auto]|auto]).
    destruct neg; [|rewrite Hm'; tauto]. rewrite negb_true_iff, <- Hm'. destruct m; split; intros [? ?]; split; auto; congruence.
Qed.
Lemma accepts_star q ts e s : e <> PDangling -> accepts (PStar q :: ts) e s <-> exists pre s', s = pre ++ q :: s' /\ accepts ts e s'.
Proof.
  intros _. unfold accepts. split.
  - intros [[-> H]|[-> [r H]]]; inversion H; subst; eauto 8.
  - intros (pre & s' & -> & [[-> H]|[-> [r H]]]); [left|right]; split; auto; [constructor; auto|exists r; constructor; auto].
Qed.
Lemma breaks_star q ts e s : breaks (PStar q :: ts) e s <-> exists pre s', s = pre ++ q :: s' /\ breaks ts e s'.
Proof.
  unfold breaks. split.
  - intros (-> & c & r & H). inversion H; subst. eauto 8.
  - intros (pre & s' & -> & -> & c & r & H). split; auto. exists c, r. constructor; auto.
Qed.
Lemma judged_star n q f p ts e : (length p < f)%nat -> q <> "*"%char -> judged f p ts e -> judged (S f) (replicate (S n) "*"%char ++ q :: p) (PStar q :: ts) e.
Proof.
  intros Hf Hq H s. destruct s as [|c s].
  { assert (E : patten_match (S f) (replicate (S n) "*"%char ++ q :: p) [] = GOk (all_stars (replicate (S n) "*"%char ++ q :: p))) by reflexivity.
    rewrite E, (not_all_stars (S n) q p Hq).
    destruct (accepts_nil (PStar q) ts e). split; split; (discriminate || tauto). }
  assert (E : patten_match (S f) (replicate (S n) "*"%char ++ q :: p) (c :: s) = star_loop (patten_match f) q p (c :: s)).
  { cbn [replicate app patten_match]. change (code "*" =? 63)%N with false. change (is_star "*") with true. cbv iota.
    rewrite skip_replicate by auto. reflexivity. }
  rewrite E. clear E. assert (HF : forall s, patten_match f p s <> GFuel) by (intros; apply patten_match_fuel; auto).
  assert (HD : e = PDangling \/ e <> PDangling) by (destruct e; (left; reflexivity) || (right; discriminate)).
  destruct HD as [->|He].
  - assert (Ht : forall s, patten_match f p s <> GOk true).
    { intros x Hx. apply H in Hx as [[? _]|[? _]]; discriminate. }
    split.
    + split; [intros Hx; destruct (star_loop_no_true _ _ _ _ Ht Hx)|]. intros [[? _]|[? _]]; discriminate.
    + rewrite star_loop_breaks, breaks_star by auto. split; intros (pre & s' & E & Hx); exists pre, s'; split; auto; apply H; auto.
  - assert (Hp : forall s, patten_match f p s <> GPanic) by (intros x Hx; apply H in Hx as [? _]; congruence).
    split.
    + rewrite star_loop_true, accepts_star by auto. split; intros (pre & s' & E & Hx); exists pre, s'; split; auto; apply H; auto.
    + split; [intros Hx; destruct (star_loop_no_panic _ _ _ _ Hp Hx)|]. intros [? _]; congruence.
Qed.

Lemma reads_judged p ts e : reads_pat p ts e -> forall f, (length p < f)%nat -> judged f p ts e.
Proof.
  induction 1 as [|p ts e _ IH|c p ts e H1 H2 H3 _ IH|n|n q p ts e Hq _ IH|neg l p ts e Hl Ho _ IH|neg l Hl Ho|neg l Hl Ho]; intros f Hf; (destruct f as [|f]; [cbn in Hf; lia|]).
  - intros s. cbn [patten_match]. unfold accepts, breaks. split.
    + split; [intros E; left; split; auto; destruct s; [constructor|discriminate]|]. intros [[_ H]|[? _]]; [|discriminate]. inversion H; subst; reflexivity.
    + split; [destruct s; discriminate|intros [? _]; discriminate].
  - apply judged_any. apply IH. cbn in Hf. lia.
  - apply judged_lit; auto. apply IH. cbn in Hf. lia.
  - intros s. assert (E : patten_match (S f) (replicate (S n) "*"%char) s = GOk true).
    { destruct s as [|c s]; cbn [replicate patten_match]; [cbn; f_equal; apply all_stars_replicate|].
      change (code "*" =? 63)%N with false. change (is_star "*") with true. cbv iota. rewrite skip_all. reflexivity. }
    rewrite E. split; split; intros Hx; auto; try discriminate; [right; split; auto; exists s; constructor|destruct Hx; discriminate].
  - apply judged_star; auto; [|apply IH]; rewrite app_length in Hf; cbn in Hf; lia.
  - apply judged_class; auto. apply IH. rewrite !app_length in Hf. cbn in Hf. destruct neg; cbn in Hf; lia.
  - intros s. assert (E : patten_match (S f) (opening neg ++ show_citems l) s = GOk false).
    { destruct s as [|c s]; [destruct neg; reflexivity|]. destruct neg; cbn [opening B list_ascii_of_string app patten_match];
        change (code "[" =? 63)%N with false; change (is_star "[") with false; change (code "[" =? 91)%N with true; cbv iota.
      - change (code "^" =? 94)%N with true. cbv iota. destruct (class_open l (S (length (show_citems l))) "^" c false Hl) as [m ->]; [lia|]. reflexivity.
      - destruct (show_citems l) as [|y r] eqn:Eb; [reflexivity|].
        assert (Ey : (code y =? 94)%N = false).
        { apply (not_char y "^"). intros ->. specialize (Ho eq_refl). cbn in Ho. congruence. }
        rewrite Ey, <- Eb. destruct (class_open l (S (length (show_citems l))) "[" c false Hl) as [m ->]; [lia|]. reflexivity. }
    rewrite E. split; split; intros Hx; try discriminate; [destruct Hx as [[? _]|[? _]]; discriminate|destruct Hx; discriminate].
  - intros s. destruct s as [|c s].
    { assert (E : patten_match (S f) (opening neg ++ show_citems l ++ B "-") [] = GOk false) by (destruct neg; reflexivity). rewrite E.
      split; split; intros Hx; try discriminate; [destruct Hx as [[? _]|[? _]]; discriminate|]. destruct Hx as (_ & x & r & Hx). apply eats_nothing in Hx as [_ ?]. discriminate. }
    assert (E : patten_match (S f) (opening neg ++ show_citems l ++ B "-") (c :: s) = GPanic).
    { destruct neg; cbn [opening B list_ascii_of_string app patten_match];
        change (code "[" =? 63)%N with false; change (is_star "[") with false; change (code "[" =? 91)%N with true; cbv iota.
      - change (code "^" =? 94)%N with true. cbv iota. pose proof (class_dangling l (S (length (show_citems l ++ B "-"))) "^" c false Hl) as E. cbn [B list_ascii_of_string] in E. rewrite E; [reflexivity|lia].
      - destruct (show_citems l ++ ["-"%char]) as [|y r] eqn:Eb; [destruct (show_citems l); discriminate|].
        assert (Ey : (code y =? 94)%N = false).
        { apply (not_char y "^"). intros ->. specialize (Ho eq_refl). destruct (show_citems l); [discriminate|]. cbn in Ho. injection Eb as -> _. congruence. }
        rewrite Ey, <- Eb. pose proof (class_dangling l (S (length (show_citems l ++ B "-"))) "[" c false Hl) as E. cbn [B list_ascii_of_string] in E. rewrite E; [reflexivity|lia]. }
    rewrite E. split; split; intros Hx; try discriminate; auto.
    + destruct Hx as [[? _]|[? _]]; discriminate.
    + split; auto. exists c, s. constructor.
Qed.
Theorem glob_exact p ts e s : reads_pat p ts e ->
  (glob p s = GOk true <-> accepts ts e s) /\ (glob p s = GPanic <-> breaks ts e s).
Proof. intros H. apply (reads_judged p ts e H). lia. Qed.

(** ** Every pattern can be read *)
Lemma body_read b : exists l t, b = show_citems l ++ t /\ Forall citem_ok l /\ (t = [] \/ t = B "-" \/ exists p, t = B "]" ++ p).
Proof.
  remember (length b) as n eqn:E. revert b E. induction n as [n IH] using lt_wf_ind. intros b E.
  destruct b as [|x b]; [exists [], []; cbn; auto|]. cbn in E.
  destruct (ascii_dec x "]") as [->|H1]; [exists [], ("]"%char :: b); split; [reflexivity|]; split; [constructor|]; right; right; exists b; reflexivity|].
  destruct (ascii_dec x "-") as [->|H2].
  - destruct b as [|y b]; [exists [], (B "-"); split; [reflexivity|]; split; [constructor|auto]|]. cbn in E.
    destruct (IH (length b)) with (b := b) as (l & t & -> & Hl & Ht); [lia|auto|].
    exists (To y :: l), t. split; [reflexivity|]. split; [constructor; auto; exact I|auto].
  - destruct (IH (length b)) with (b := b) as (l & t & -> & Hl & Ht); [lia|auto|].
    exists (Chr x :: l), t. split; [reflexivity|]. split; [constructor; auto; split; auto|auto].
Qed.
Lemma stars_read p : exists n q, p = replicate n "*"%char ++ q /\ head q <> Some "*"%char.
Proof.
  induction p as [|c p (n & q & -> & Hq)]; [exists 0%nat, []; split; [reflexivity|discriminate]|].
  destruct (ascii_dec c "*") as [->|H]; [exists (S n), q; auto|].
  exists 0%nat, (c :: replicate n "*"%char ++ q). split; [reflexivity|]. cbn. congruence.
Qed.
Theorem pattern_read p : exists ts e, reads_pat p ts e.
Proof.
  remember (length p) as n eqn:E. revert p E. induction n as [n IH] using lt_wf_ind. intros p E.
  destruct p as [|c p]; [exists [], PFinish; constructor|]. cbn in E.
  assert (Hp : exists ts e, reads_pat p ts e) by (eapply (IH (length p)); auto; lia).
  destruct (ascii_dec c "?") as [->|H1]; [destruct Hp as (ts & e & Hp); exists (PAny :: ts), e; apply (rp_any p); auto|].
  destruct (ascii_dec c "*") as [->|H2].
  { destruct (stars_read p) as (m & q & -> & Hq). destruct q as [|q p].
    - rewrite app_nil_r. exists [], PStars. apply (rp_stars m).
    - cbn in Hq. rewrite app_length in E. cbn in E. destruct (IH (length p)) with (p := p) as (ts & e & H); [lia|auto|].
      exists (PStar q :: ts), e. apply (rp_star m); [congruence|auto]. }
  destruct (ascii_dec c "[") as [->|H3].
  { destruct (decide (head p = Some "^"%char)) as [Hneg|Hneg].
    - destruct p as [|y p]; [discriminate|]. injection Hneg as ->. cbn in E.
      destruct (body_read p) as (l & t & -> & Hl & Ht).
      assert (Ho : opens true (show_citems l)) by (intros ?; discriminate).
      destruct Ht as [->|[->|[r ->]]].
      + rewrite app_nil_r. exists [], POpen. apply (rp_open true l); auto.
      + exists [], PDangling. apply (rp_dangling true l); auto.
      + rewrite !app_length in E. cbn in E. destruct (IH (length r)) with (p := r) as (ts & e & H); [lia|auto|].
        exists (PClass true l :: ts), e. apply (rp_class true l); auto.
    - destruct (body_read p) as (l & t & -> & Hl & Ht).
      assert (Ho : opens false (show_citems l)).
      { intros _ Hx. apply Hneg. destruct (show_citems l); [discriminate|exact Hx]. }
      destruct Ht as [->|[->|[r ->]]].
      + rewrite app_nil_r. exists [], POpen. apply (rp_open false l); auto.
      + exists [], PDangling. apply (rp_dangling false l); auto.
      + rewrite !app_length in E. cbn in E. destruct (IH (length r)) with (p := r) as (ts & e & H); [lia|auto|].
        exists (PClass false l :: ts), e. apply (rp_class false l); auto. }
  destruct Hp as (ts & e & Hp). exists (PLit c :: ts), e. constructor; auto.
Qed.
