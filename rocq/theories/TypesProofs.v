(** Wrong types in the commands of several keys. *)
From Verif Require Export RefAll.

Section WithParams.
Context {P : Setup}.

(** What a command that obeys [m] can have done. *)
Lemma met now d cmd m out : Inv d -> meets now d cmd m -> ~ panics now d cmd -> ~ loops_forever now d cmd -> step now d cmd out ->
  exists r d' S', out = Done r d' /\ m now (view now d) (fun k => lingers now (raw d k)) r S' /\ forall t k, now <= t -> view t d' k = live t (S' k).
Proof.
  intros HI Hm Hp Hl Hst. pose proof (ref_exact now d cmd out HI Hst) as H. destruct out as [r d'|d'|d']; try contradiction.
  destruct (Hm r d' Hst) as (S' & H1 & H2). exists r, d', S'. split; auto. split; auto. intros t k Ht.
  rewrite <- (live_live now t (S' k)) by auto. rewrite <- (proj1 (H2 k)). rewrite live_view by auto. auto.
Qed.
Definition untouched (now : Z) (d d' : db) : Prop := forall t k, now <= t -> view t d' k = view t d k.
Lemma met_error now d cmd m out : Inv d -> meets now d cmd m -> ~ panics now d cmd -> ~ loops_forever now d cmd -> step now d cmd out ->
  (forall r S', m now (view now d) (fun k => lingers now (raw d k)) r S' -> (exists x, r = RErr x) /\ same (view now d) S') ->
  exists x d', out = Done (RErr x) d' /\ untouched now d d'.
Proof.
  intros HI Hm Hp Hl Hst Hr. destruct (met now d cmd m out HI Hm Hp Hl Hst) as (r & d' & S' & -> & H1 & H2).
  destruct (Hr r S' H1) as [[x ->] HS]. exists x, d'. split; auto. intros t k Ht. rewrite H2, HS, live_view by auto. auto.
Qed.
Lemma live_lingers now d k : view now d k <> None -> lingers now (raw d k) = false.
Proof. rewrite view_raw. unfold lingers, live. destruct (raw d k) as [[v [dl|]]|]; auto. destruct (Z.ltb_spec dl now); auto. congruence. Qed.

Ltac not_named Hn Hm := exfalso; clear - Hn Hm; unfold named in *; rewrite Hn in Hm; vm_compute in Hm; discriminate.

Lemma kept_live (g : bytes -> bool) k l : k ∈ l -> g (str k) = false -> k ∈ kept_keys g l.
Proof.
  revert g. induction l as [|y l IH]; intros g Hk Hg; [inversion Hk|]. cbn [kept_keys].
  apply elem_of_cons in Hk as [<-|Hk]; [rewrite Hg; left|].
  destruct (g (str y)); [apply IH; auto; rewrite Hg; auto|right; apply IH; auto].
Qed.
Lemma wrong_setop op now d n k args out : Inv d -> named n (setop_word op) -> k ∈ args -> wrong_type now d (str k) KSet ->
  step now d (n :: args) out -> exists x d', out = Done (RErr x) d' /\ untouched now d d'.
Proof.
  intros HI Hn Hk (v & dl & Hv & Hkd) Hst.
  assert (Hg : lingers now (raw d (str k)) = false) by (apply live_lingers; congruence).
  apply (met_error now d (n :: args) (ref_setop op args) out HI); auto.
  - apply setop_meets; auto.
  - cbn. intros H. assert (Hp : panics_setop now d args).
    { repeat (destruct H as [[Hm H]|H]; [solve [exfalso; clear -Hn Hm; destruct op; unfold named in *; rewrite Hn in Hm; vm_compute in Hm; discriminate] || exact H|]).
      destruct H as [Hm _]. exfalso; clear -Hn Hm; destruct op; unfold named in *; rewrite Hn in Hm; vm_compute in Hm; discriminate. }
    destruct Hp as (_ & _ & Hf). rewrite List.Forall_forall in Hf. apply elem_of_list_In in Hk. destruct (Hf k Hk) as (t & Ht & Hlt).
    rewrite view_raw in Hv. unfold live, raw in Hv. rewrite Ht in Hv. destruct (dict d !! str k); [|discriminate]. cbn in Hv.
    destruct (Z.ltb_spec t now); [discriminate|lia].
  - intros (n' & k' & w & p & u & l & dl' & x & He & Hm & _). injection He as -> _. destruct op; not_named Hn Hm.
  - intros r S' H. unfold ref_setop in H. destruct args as [|a args]; [inversion Hk|].
    assert (Hin : k ∈ kept_keys (fun x => lingers now (raw d x)) (a :: args)).
    { apply kept_live; auto. }
    destruct (map str _) as [|k0 ks] eqn:Em; [destruct H|].
    assert (Hi : str k ∈ k0 :: ks) by (rewrite <- Em; apply elem_of_list_fmap; eauto).
    assert (Ho : operand (view now d (str k)) = None) by (rewrite Hv; destruct v; auto; contradiction).
    destruct H as [HS H]. split; auto. destruct (operand (view now d k0)) eqn:E0; [|subst; eauto].
    apply elem_of_cons in Hi as [<-|Hi]; [congruence|].
    destruct (mapM _ ks) eqn:E1; [|subst; eauto]. exfalso. apply mapM_Some in E1. clear -E1 Hi Ho. induction E1; [inversion Hi|].
    apply elem_of_cons in Hi as [<-|Hi]; [congruence|auto].
Qed.

Lemma wrong_store op now d n b k args out : Inv d -> named n (setopstore_word op) -> wrong_type now d (str k) KSet ->
  step now d (n :: b :: k :: args) out -> exists x d', out = Done (RErr x) d' /\ untouched now d d'.
Proof.
  intros HI Hn (v & dl & Hv & Hkd) Hst.
  assert (Hg : lingers now (raw d (str k)) = false) by (apply live_lingers; congruence).
  apply (met_error now d (n :: b :: k :: args) (ref_store op (b :: k :: args)) out HI); auto.
  - apply store_meets; auto.
  - cbn. intros H. repeat (destruct H as [H|H]); destruct H as [Hm _]; try destruct Hm as [Hm|[Hm|Hm]]; destruct op; not_named Hn Hm.
  - intros (n' & k' & w & p & u & l & dl' & x & He & Hm & _). injection He as -> _. destruct op; not_named Hn Hm.
  - intros r S' H. unfold ref_store in H. cbn [kept_keys] in H. rewrite Hg in H. cbn [andb map] in H.
    unfold ref_store_at in H. assert (Ho : operand (view now d (str k)) = None) by (rewrite Hv; destruct v; auto; contradiction).
    rewrite Ho in H. destruct H as [-> H]. split; auto. eexists; reflexivity.
Qed.

Lemma wrong_smove now d n a b x out : Inv d -> named n "smove" -> view now d (str a) <> None -> set_nonempty (str a) now (view now d) -> unexpired now d (str b) ->
  wrong_type now d (str a) KSet \/ wrong_type now d (str b) KSet ->
  step now d [n; a; b; x] out -> exists e d', out = Done (RErr e) d' /\ untouched now d d'.
Proof.
  intros HI Hn Ha Hne Hb Hw Hst.
  assert (Hg : lingers now (raw d (str a)) = false) by (apply live_lingers; auto).
  apply (met_error now d [n; a; b; x] (ref_of "smove" [a; b; x]) out HI); auto.
  - apply smove_meets; auto.
  - cbn. intros H. repeat (destruct H as [H|H]); destruct H as [Hm _]; try destruct Hm as [Hm|[Hm|Hm]]; not_named Hn Hm.
  - intros (n' & k' & w & p & u & l & dl' & y & He & Hm & _). injection He as -> _. not_named Hn Hm.
  - assert (Hgb : lingers now (raw d (str b)) = false) by (rewrite lingers_expired by auto; apply unexp_false; auto).
    intros r S'. open_ref. unfold if_gone. rewrite Hg, Hgb. unfold plain, ref_smove_at. intros H.
    destruct (view now d (str a)) as [[v da]|] eqn:Ea; [|congruence].
    destruct v as [s|h|l|s]; try (destruct H as [-> H]; split; auto; eexists; reflexivity).
    destruct Hw as [(v & dl & Hv & Hk)|(v & dl & Hv & Hk)]; [exfalso; apply Hk; rewrite Ea in Hv; injection Hv as <- _; reflexivity|].
    rewrite Hv in H. assert (Hs : keep_set s da = view now d (str a)).
    { unfold keep_set. destruct (decide (s = ∅)) as [E|]; [|congruence]. subst. exfalso. apply (Hne da). auto. }
    destruct v as [s'|h|l|s']; try (exfalso; apply Hk; reflexivity); destruct H as [-> [H1 H2]]; (split; [eexists; reflexivity|]);
      intros k'; (destruct (decide (k' = str a)) as [->|Hka]; [congruence|auto]).
Qed.

Lemma wrong_lmove now d n a b wa wb out : Inv d -> named n "lmove" -> view now d (str a) <> None -> list_nonempty (str a) now (view now d) ->
  wrong_type now d (str a) KList /\ view now d (str b) <> None \/ wrong_type now d (str b) KList ->
  step now d [n; a; b; wa; wb] out -> exists e d', out = Done (RErr e) d' /\ untouched now d d'.
Proof.
  intros HI Hn Ha Hne Hw Hst.
  assert (Hg : lingers now (raw d (str a)) = false) by (apply live_lingers; auto).
  apply (met_error now d [n; a; b; wa; wb] (ref_of "lmove" [a; b; wa; wb]) out HI); auto.
  - apply lmove_meets; auto.
  - cbn. intros H. repeat (destruct H as [H|H]); destruct H as [Hm H]; try destruct Hm as [Hm|[Hm|Hm]]; try not_named Hn Hm.
    destruct H as (a' & b' & wa' & wb' & dl & He & _ & _ & H & _). injection He as <- <- <- <-. exact (Hne _ H).
  - intros (n' & k' & w & p & u & l & dl' & y & He & Hm & _). injection He as -> _. not_named Hn Hm.
  - intros r S'. open_ref. unfold if_gone. rewrite Hg. destruct (direction wa) as [fl|], (direction wb) as [tl|];
      try (intros [-> H]; split; auto; eexists; reflexivity).
    unfold plain, ref_lmove_at. intros H.
    destruct (view now d (str a)) as [[v da]|] eqn:Ea; [|congruence].
    destruct (view now d (str b)) as [[vb db]|] eqn:Eb.
    2:{ exfalso. destruct Hw as [[_ Hw]|(v0 & dl & Hv & _)]; congruence. }
    destruct v as [s|h|l|s]; try (destruct H as [-> H]; split; auto; eexists; reflexivity).
    destruct Hw as [[(v & dl & Hv & Hk) _]|(v & dl & Hv & Hk)]; [exfalso; apply Hk; rewrite Ea in Hv; injection Hv as <- _; reflexivity|].
    rewrite Eb in Hv. injection Hv as <- <-.
    assert (Hs : keep_list l da = view now d (str a)).
    { unfold keep_list. destruct l; [|congruence]. exfalso. apply (Hne da). auto. }
    destruct vb as [s'|h|l'|s']; try (exfalso; apply Hk; reflexivity); destruct H as [-> [H1 H2]]; (split; [eexists; reflexivity|]);
      intros k'; (destruct (decide (k' = str a)) as [->|Hka]; [congruence|auto]).
Qed.
End WithParams.
