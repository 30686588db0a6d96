(** RESP frames are unambiguous, and the encoder produces them. *)
From Verif Require Export SpecWire Ints.

Scheme frame_mind := Induction for frame Sort Prop with frames_mind := Induction for frames Sort Prop.
Combined Scheme frame_frames_ind from frame_mind, frames_mind.

(** Induction on reply values. *)
Fixpoint rdata_ind' (Q : rdata -> Prop) (Hs : forall s, Q (RStr s)) (He : forall s, Q (RErr s))
  (Hi : forall n, Q (RInt n)) (Hb : forall v, Q (RBulk v)) (Hn : Q (RArr None))
  (Ha : forall l, Forall Q l -> Q (RArr (Some l))) (Hnil : Q RNil) (d : rdata) : Q d :=
  match d with
  | RStr s => Hs s | RErr s => He s | RInt n => Hi n | RBulk v => Hb v | RNil => Hnil
  | RArr None => Hn
  | RArr (Some l) => Ha l ((fix go (l : list rdata) : Forall Q l :=
      match l with [] => Forall_nil _ | x :: r => Forall_cons _ _ _ (rdata_ind' Q Hs He Hi Hb Hn Ha Hnil x) (go r) end) l)
  end.

(** ** Decimals determine their value *)
Definition value_of (s : bytes) : Z :=
  match s with
  | c :: r => if (code c =? 43)%N then decimal r else if (code c =? 45)%N then - decimal r else decimal s
  | [] => 0
  end.
Lemma denotes_value s n : denotes s n -> n = value_of s.
Proof.
  intros (l & Hl & HF & [[[->| ->] ->]|[-> ->]]); try reflexivity.
  destruct l as [|c l]; [congruence|]. inversion HF as [|? ? Hc]; subst. destruct (digit_not_sign c Hc) as [E1 E2].
  cbn [value_of]. rewrite E1, E2. auto.
Qed.
Lemma denotes_fun ds n m : denotes ds n -> denotes ds m -> n = m.
Proof. intros H1%denotes_value H2%denotes_value. congruence. Qed.

(** ** Splitting at the first CR *)
Definition no_cr (s : bytes) : Prop := Forall (fun c => code c <> 13%N) s.
Lemma line_split s s' r r' : no_cr s -> no_cr s' -> s ++ CRLF ++ r = s' ++ CRLF ++ r' -> s = s' /\ r = r'.
Proof.
  intros H. revert s'. induction H as [|c s Hc H IH]; intros s' H' E.
  - destruct s' as [|c' s']; [injection E as <-; auto|]. injection E as E _. inversion H' as [|? ? Hc' _]; subst.
    destruct Hc'. reflexivity.
  - destruct s' as [|c' s'].
    + injection E as E _. subst. destruct Hc. reflexivity.
    + inversion H'; subst. injection E as <- E. apply IH in E as [-> ->]; auto.
Qed.
Lemma denotes_nocr ds n : denotes ds n -> no_cr ds.
Proof.
  intros (l & _ & HF & H). assert (Hl : no_cr l).
  { eapply List.Forall_impl; [|exact HF]. unfold is_digit. intros c Hc. lia. }
  destruct H as [[[->| ->] _]|[-> _]]; auto; constructor; auto; vm_compute; discriminate.
Qed.
Lemma crlf_nocr s : no_crlf s -> no_cr s.
Proof. intros H. eapply List.Forall_impl; [|exact H]. intros c [Hc _]. exact Hc. Qed.

Lemma app_len_inv (a b c d : bytes) : zlen a = zlen b -> a ++ c = b ++ d -> a = b /\ c = d.
Proof. intros Hl E. apply app_inj_1 in E; auto. unfold zlen in Hl. lia. Qed.

Ltac den := repeat match goal with H : denotes ?ds ?n |- _ => first
  [ match goal with H' : denotes ds ?m |- _ => tryif constr_eq n m then fail else
      (let E := fresh in pose proof (denotes_fun _ _ _ H H') as E; clear H') end ] end.
Theorem frame_unamb :
  (forall d f, frame d f -> forall d' f' r r', frame d' f' -> f ++ r = f' ++ r' -> d = d' /\ f = f' /\ r = r') /\
  (forall l f, frames l f -> forall l' f' r r', frames l' f' -> length l = length l' -> f ++ r = f' ++ r' ->
     l = l' /\ f = f' /\ r = r').
Proof.
  assert (Hz : forall A (l : list A), zlen l <> -1) by (intros; unfold zlen; lia).
  apply frame_frames_ind.
  1-6: intros; match goal with H : frame _ _ |- _ => inversion H; subst end;
    match goal with H : _ ++ _ = _ ++ _ |- _ => rewrite <- ?app_assoc in H end; try discriminate;
    match goal with H : B ?a ++ ?x = B ?a ++ ?y |- _ => apply app_inv_head in H; apply line_split in H as [? ?] end;
    eauto using denotes_nocr, crlf_nocr; subst; auto; den; subst; auto; try (exfalso; eapply Hz; eauto; fail);
    try (exfalso; symmetry in H2; eapply Hz; eauto; fail).
  - match goal with H : s ++ _ = _ |- _ => apply app_len_inv in H as [-> E]; [|auto] end.
    apply app_inv_head in E. subst; auto.
  - intros ds l b Hd Hl IH d' f' r r' H E. inversion H; subst; rewrite <- ?app_assoc in E; try discriminate;
      apply app_inv_head in E; apply line_split in E as [? E]; eauto using denotes_nocr; subst; den.
    + exfalso. eapply Hz; eauto.
    + destruct (IH l0 b0 r r') as (-> & -> & ->); auto. unfold zlen in *. lia.
  - intros l' f' r r' H Hl E. inversion H; subst; [auto|discriminate Hl].
  - intros d l f s Hf IHf Hs IHs l' f' r r' H Hl E. destruct H as [|d' l' f' s' Hf' Hs']; [discriminate Hl|].
    rewrite <- !app_assoc in E. destruct (IHf _ _ _ _ Hf' E) as (<- & <- & E').
    destruct (IHs _ _ _ _ Hs' ltac:(cbn in Hl; lia) E') as (<- & <- & <-). auto.
Qed.
Theorem decodes_fun s d r d' r' : decodes s d r -> decodes s d' r' -> d = d' /\ r = r'.
Proof.
  intros (f & Hf & ->) (f' & Hf' & E). destruct (proj1 frame_unamb _ _ Hf _ _ _ _ Hf' E) as (-> & -> & ->); auto.
Qed.

(** ** The encoder *)
Lemma frame_nonempty d f : frame d f -> f <> [].
Proof. destruct 1; discriminate. Qed.
Lemma m1_denotes : denotes (B "-1") (-1).
Proof.
  exists (B "1"). split; [discriminate|]. split; [repeat constructor; vm_compute; discriminate|]. right.
  split; reflexivity.
Qed.
Theorem enc_frame d : sendable d -> exists f, enc d = Some f /\ frame d f.
Proof.
  induction d as [s|s|n|v| |l IH| ] using rdata_ind'; intros H; inversion H; subst; cbn [enc].
  - eexists; split; [reflexivity|constructor; auto].
  - eexists; split; [reflexivity|constructor; auto].
  - eexists; split; [reflexivity|constructor; apply fmt_int_denotes].
  - destruct v as [s|]; eexists; (split; [reflexivity|]).
    + constructor. apply fmt_int_denotes.
    + apply (fr_null (B "-1")). apply m1_denotes.
  - eexists; split; [reflexivity|]. apply (fr_nullarr (B "-1")). apply m1_denotes.
  - set (encs := fix encs (l : list rdata) : option bytes := match l with [] => Some []
      | x :: r => match enc x, encs r with Some a, Some b => Some (a ++ b) | _, _ => None end end).
    assert (E : exists b, encs l = Some b /\ frames l b).
    { clear H. induction l as [|x l IHl]; [exists []; split; [reflexivity|constructor]|].
      inversion IH; subst. inversion H1; subst. destruct H2 as (f & Ef & Hf); auto.
      destruct IHl as (b & Eb & Hb); auto. exists (f ++ b). split; [|constructor; auto].
      cbn. rewrite Ef. fold encs. rewrite Eb. auto. }
    destruct E as (b & Eb & Hb). rewrite Eb. eexists. split; [reflexivity|].
    constructor; auto. apply fmt_int_denotes.
Qed.
(** A reply that is not sendable is not one frame of its own. *)
Theorem enc_total d : sendable d -> forall r, exists f, enc d = Some f /\ decodes (f ++ r) d r.
Proof. intros H r. destruct (enc_frame d H) as (f & E & Hf). exists f. split; auto. exists f. auto. Qed.
Theorem frames_split ds f : frames ds f -> forall es g, frames es g -> f = g -> ds = es.
Proof.
  induction 1 as [|d ds f s Hd Hds IH]; intros es g H'; destruct H' as [|e es f' s' He Hes]; intros E; auto.
  - symmetry in E. apply app_eq_nil in E as [E _]. apply frame_nonempty in He. congruence.
  - apply app_eq_nil in E as [E _]. apply frame_nonempty in Hd. congruence.
  - destruct (proj1 frame_unamb _ _ Hd _ _ _ _ He E) as (-> & -> & ->). f_equal; eauto.
Qed.
