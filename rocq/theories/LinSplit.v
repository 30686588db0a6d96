(** DEL, EXISTS and MGET of several keys are executed like the same commands of one key each. *)
From Verif Require Export SpecSplit LinMain WpTac.

(** Two programs that do the same, with related results. *)
Inductive like {A C} (R : A -> C -> Prop) : prog A -> prog C -> Prop :=
| like_ret a c : R a c -> like R (Ret a) (Ret c)
| like_crash : like R Crash Crash
| like_hang : like R Hang Hang
| like_now k k' : (forall x, like R (k x) (k' x)) -> like R (Now k) (Now k')
| like_range l k k' : (forall x, like R (k x) (k' x)) -> like R (Range l k) (Range l k')
| like_dget key k k' : (forall x, like R (k x) (k' x)) -> like R (DGet key k) (DGet key k')
| like_dset key v k k' : (forall x, like R (k x) (k' x)) -> like R (DSet key v k) (DSet key v k')
| like_dmut key v k k' : like R k k' -> like R (DMut key v k) (DMut key v k')
| like_ddel key k k' : (forall x, like R (k x) (k' x)) -> like R (DDel key k) (DDel key k')
| like_dseg i k k' : (forall x, like R (k x) (k' x)) -> like R (DSeg i k) (DSeg i k')
| like_cntload k k' : (forall x, like R (k x) (k' x)) -> like R (CntLoad k) (CntLoad k')
| like_cntstore n k k' : like R k k' -> like R (CntStore n k) (CntStore n k')
| like_eget key k k' : (forall x, like R (k x) (k' x)) -> like R (EGet key k) (EGet key k')
| like_eset key t k k' : like R k k' -> like R (ESet key t k) (ESet key t k')
| like_edel key k k' : (forall x, like R (k x) (k' x)) -> like R (EDel key k) (EDel key k')
| like_acq pos m k k' : like R k k' -> like R (Acq pos m k) (Acq pos m k')
| like_rel pos m k k' : like R k k' -> like R (Rel pos m k) (Rel pos m k').

Lemma like_refl {A} (p : prog A) : like eq p p.
Proof. induction p; constructor; auto. Qed.
Lemma like_mono {A C} (R S : A -> C -> Prop) p q : (forall a c, R a c -> S a c) -> like R p q -> like S p q.
Proof. intros H. induction 1; constructor; auto. Qed.
Lemma like_bind {A C A' C'} (R : A -> C -> Prop) (S : A' -> C' -> Prop) p q f g :
  like R p q -> (forall a c, R a c -> like S (f a) (g c)) -> like S (pbind p f) (pbind q g).
Proof. intros H Hf. induction H; cbn; auto; constructor; auto. Qed.
Lemma like_bind_l {A C A'} (R : A -> C -> Prop) (S : A' -> C -> Prop) p q f :
  like R p q -> (forall a c, R a c -> like S (f a) (Ret c)) -> like S (pbind p f) q.
Proof. intros H Hf. induction H; cbn; auto; constructor; auto. Qed.
Lemma like_ret_r {A} (p : prog A) : like eq p (pbind p Ret).
Proof. induction p; cbn; constructor; auto. Qed.
Lemma like_assoc {A C D} (p : prog A) (f : A -> prog C) (g : C -> prog D) : like eq (pbind p (fun a => pbind (f a) g)) (pbind (pbind p f) g).
Proof. induction p; cbn; try (constructor; auto; fail). apply like_refl. Qed.
Lemma like_assoc' {A C D} (p : prog A) (f : A -> prog C) (g : C -> prog D) : like eq (pbind (pbind p f) g) (pbind p (fun a => pbind (f a) g)).
Proof. induction p; cbn; try (constructor; auto; fail). apply like_refl. Qed.
Lemma like_trans {A C D} (R : A -> C -> Prop) (S : C -> D -> Prop) p q r : like R p q -> like S q r -> like (fun a d => exists c, R a c /\ S c d) p r.
Proof.
  intros H. revert r. induction H; intros r Hr; inversion Hr; subst; constructor; eauto.
Qed.
Lemma like_eq_l {A C} (R : A -> C -> Prop) p q r : like eq p q -> like R q r -> like R p r.
Proof. intros H1 H2. eapply like_mono; [|eapply like_trans; eauto]. cbn. intros a d (c & -> & H). exact H. Qed.
Lemma like_eq_r {A C} (R : A -> C -> Prop) p q r : like R p q -> like eq q r -> like R p r.
Proof. intros H1 H2. eapply like_mono; [|eapply like_trans; eauto]. cbn. intros a d (c & H & ->). exact H. Qed.

Section WithParams.
Context {P : Setup}.
(** Such programs have the same executions. *)
Lemma like_prim {A C} (R : A -> C -> Prop) T d p d' p' q : prim T d p d' p' -> like R p q -> exists q', prim T d q d' q' /\ like R p' q'.
Proof. intros H L. destruct H; inversion L; subst; eexists; (split; [constructor; eauto|auto]). Qed.
Definition tlike {A C} (R : nat -> A -> C -> Prop) (i : nat) (t : thread A) (u : thread C) : Prop := ann t = ann u /\ like (R i) (tcode t) (tcode u).
Definition clike {A C} (R : nat -> A -> C -> Prop) (c : conf A) (c' : conf C) : Prop :=
  cdb c = cdb c' /\ lk c = lk c' /\ length (ths c) = length (ths c') /\
  forall i t u, ths c !! i = Some t -> ths c' !! i = Some u -> tlike R i t u.
Lemma clike_at {A C} (R : nat -> A -> C -> Prop) (c : conf A) (c' : conf C) i t : clike R c c' -> ths c !! i = Some t -> exists u, ths c' !! i = Some u /\ tlike R i t u.
Proof.
  intros (_ & _ & Hl & H) Hi. destruct (lookup_lt_is_Some_2 (ths c') i) as [u Hu]; [rewrite <- Hl; eapply lookup_lt_Some; eauto|]. eauto.
Qed.
Lemma clike_put {A C} (R : nat -> A -> C -> Prop) d L ts ts' d' L' i t u : clike R (mkC d L ts) (mkC d L ts') -> tlike R i t u ->
  clike R (mkC d' L' (<[i := t]> ts)) (mkC d' L' (<[i := u]> ts')).
Proof.
  intros (_ & _ & Hl & H) Ht. cbn in *. do 2 (split; [reflexivity|]). cbn. split; [rewrite !insert_length; exact Hl|]. intros j t1 u1 H1 H2.
  destruct (decide (j = i)) as [->|].
  - apply lookup_lt_Some in H1 as Hlt1. rewrite insert_length in Hlt1. rewrite list_lookup_insert in H1 by exact Hlt1.
    apply lookup_lt_Some in H2 as Hlt. rewrite insert_length in Hlt. rewrite list_lookup_insert in H2 by exact Hlt. injection H1 as <-. injection H2 as <-. exact Ht.
  - rewrite list_lookup_insert_ne in H1 by auto. rewrite list_lookup_insert_ne in H2 by auto. eauto.
Qed.
Lemma like_cstep {A C} (R : nat -> A -> C -> Prop) T (c c1 : conf A) (c' : conf C) : cstep T c c1 -> clike R c c' -> exists c1', cstep T c' c1' /\ clike R c1 c1'.
Proof.
  intros Hs Hc. destruct c' as [d2 L2 ts2]. pose proof Hc as (E1 & E2 & _ & _). 
  destruct Hs as [d L ts i p d' p' Hi Hp|d L ts i pos k n Hi Hl|d L ts i pos k n Hi Hl|d L ts i pos k Hi Hl|d L ts i pos k n b Hi Hl|d L ts i pos k n b Hi Hl]; cbn in E1, E2; subst d2 L2;
    destruct (clike_at R _ _ _ _ Hc Hi) as ([q a] & Hu & Ha & HL); cbn in Ha, Hu, HL; subst a.
  - destruct (like_prim _ _ _ _ _ _ _ Hp HL) as (q' & Hq & HL'). eexists. split; [eapply C_prim; eauto|]. eapply clike_put; [exact Hc|]. split; auto.
  - inversion HL; subst. eexists. split; [eapply C_rlock; eauto|]. eapply clike_put; [exact Hc|]. split; auto.
  - inversion HL; subst. eexists. split; [eapply C_announce; eauto|]. eapply clike_put; [exact Hc|]. split; auto.
  - inversion HL; subst. eexists. split; [eapply C_wlock; eauto|]. eapply clike_put; [exact Hc|]. split; auto.
  - inversion HL; subst. eexists. split; [eapply C_runlock; eauto|]. eapply clike_put; [exact Hc|]. split; auto.
  - inversion HL; subst. eexists. split; [eapply C_wunlock; eauto|]. eapply clike_put; [exact Hc|]. split; auto.
Qed.
Lemma like_csteps {A C} (R : nat -> A -> C -> Prop) T (c c1 : conf A) (c' : conf C) : rtc (cstep T) c c1 -> clike R c c' -> exists c1', rtc (cstep T) c' c1' /\ clike R c1 c1'.
Proof.
  intros H. revert c'. induction H as [c|c c2 c1 Hs _ IH]; intros c' Hc; [exists c'; split; [apply rtc_refl|auto]|].
  destruct (like_cstep _ _ _ _ _ Hs Hc) as (c2' & H1 & H2). destruct (IH _ H2) as (c1' & H3 & H4). exists c1'. split; [eapply rtc_l; eauto|auto].
Qed.

(** The replies to the pieces, after those received before. *)
Definition more (acc ps : list rdata) (Q : list rdata -> Prop) : Prop := exists qs, ps = acc ++ qs /\ Q qs.
Lemma del_pieces n ks : named n "del" -> forall z acc,
  like (fun (r : Z) ps => more acc ps (fun qs => length qs = length ks /\ exists ns, qs = map RInt ns /\ r = z + foldr Z.add 0 ns))
    (del_loop ks z) (client_from acc (map (fun k => [n; k]) ks)).
Proof.
  intros Hn. induction ks as [|k ks IH]; intros z acc; cbn [map client_from].
  - constructor. exists []. rewrite app_nil_r. split; auto. split; auto. exists []. split; auto. cbn. lia.
  - rewrite (exec_named n [k] "del" del_key) by (auto; reflexivity). cbn [del_key del_loop]. cbv zeta.
    eapply like_eq_r; [|apply like_assoc]. eapply like_eq_r; [|apply like_assoc].
    eapply like_bind; [apply like_refl|]. intros e ? <-. destruct e.
    + cbn [pbind]. eapply like_mono; [|apply (IH z (acc ++ [RInt 0]))]. cbn. intros r ps (qs & -> & H1 & ns & -> & H2).
      exists (RInt 0 :: map RInt ns). rewrite <- app_assoc. split; auto. split; [cbn; lia|]. exists (0 :: ns). split; auto.
    + eapply like_eq_r; [|apply like_assoc]. eapply like_bind; [apply like_refl|]. intros x ? <-. cbn [pbind].
      eapply like_mono; [|apply (IH (z + x) (acc ++ [RInt (0 + x)]))]. cbn. intros r ps (qs & -> & H1 & ns & -> & H2).
      exists (RInt x :: map RInt ns). rewrite <- app_assoc. split; [destruct x; auto|]. split; [cbn; lia|]. exists (x :: ns). split; auto. cbn. lia.
Qed.
Lemma exists_pieces n ks : named n "exists" -> forall z acc,
  like (fun (r : Z) ps => more acc ps (fun qs => length qs = length ks /\ exists ns, qs = map RInt ns /\ r = z + foldr Z.add 0 ns))
    (exists_loop ks z) (client_from acc (map (fun k => [n; k]) ks)).
Proof.
  intros Hn. induction ks as [|k ks IH]; intros z acc; cbn [map client_from].
  - constructor. exists []. rewrite app_nil_r. split; auto. split; auto. exists []. split; auto. cbn. lia.
  - rewrite (exec_named n [k] "exists" exists_key) by (auto; reflexivity). cbn [exists_key exists_loop]. cbv zeta.
    eapply like_eq_r; [|apply like_assoc]. eapply like_eq_r; [|apply like_assoc].
    eapply like_bind; [apply like_refl|]. intros e ? <-. destruct e.
    + cbn [pbind]. eapply like_mono; [|apply (IH z (acc ++ [RInt 0]))]. cbn. intros r ps (qs & -> & H1 & ns & -> & H2).
      exists (RInt 0 :: map RInt ns). rewrite <- app_assoc. split; auto. split; [cbn; lia|]. exists (0 :: ns). split; auto.
    + eapply like_eq_r; [|apply like_assoc]. eapply like_bind; [apply like_refl|]. intros x ? <-. cbn [pbind].
      eapply like_mono; [|apply (IH (z + x) (acc ++ [RInt (0 + x)]))]. cbn. intros r ps (qs & -> & H1 & ns & -> & H2).
      exists (RInt x :: map RInt ns). rewrite <- app_assoc. split; [destruct x; auto|]. split; [cbn; lia|]. exists (x :: ns). split; auto. cbn. lia.
Qed.
Lemma mget_pieces n ks : named n "mget" -> forall l acc,
  like (fun (r : list rdata) ps => more acc ps (fun qs => length qs = length ks /\ exists ls, qs = map (fun l => RArr (Some l)) ls /\ r = l ++ concat ls))
    (mget_loop ks l) (client_from acc (map (fun k => [n; k]) ks)).
Proof.
  intros Hn. induction ks as [|k ks IH]; intros l acc; cbn [map client_from].
  - constructor. exists []. rewrite app_nil_r. split; auto. split; auto. exists []. split; auto. cbn. rewrite app_nil_r. auto.
  - rewrite (exec_named n [k] "mget" mget_string) by (auto; reflexivity). cbn [mget_string mget_loop]. cbv zeta.
    eapply like_eq_r; [|apply like_assoc]. eapply like_eq_r; [|apply like_assoc].
    eapply like_bind; [apply like_refl|]. intros e ? <-. destruct e.
    + cbn [pbind]. eapply like_mono; [|apply (IH l (acc ++ [RArr (Some [])]))]. cbn. intros r ps (qs & -> & H1 & ls & -> & H2).
      exists (RArr (Some []) :: map (fun l => RArr (Some l)) ls). rewrite <- app_assoc. split; auto. split; [cbn; lia|]. exists ([] :: ls). split; auto.
    + eapply like_eq_r; [|apply like_assoc]. eapply like_bind; [apply like_refl|]. intros x ? <-. cbn [pbind app].
      eapply like_mono; [|apply (IH (l ++ [x]) (acc ++ [RArr (Some [x])]))]. cbn. intros r ps (qs & -> & H1 & ls & -> & H2).
      exists (RArr (Some [x]) :: map (fun l => RArr (Some l)) ls). rewrite <- app_assoc. split; auto. split; [cbn; lia|]. exists ([x] :: ls). split; auto.
      rewrite H2, <- app_assoc. reflexivity.
Qed.
Lemma cmd_is_named s n args : cmd_is s (n :: args) = true -> named n s.
Proof. apply bool_decide_eq_true_1. Qed.
Lemma one_piece acc cmd : like (fun r ps => more acc ps (fun qs => length qs = 1%nat /\ joins qs r)) (exec_in_db cmd) (client_from acc [cmd]).
Proof.
  cbn [client_from]. eapply like_eq_l; [apply like_ret_r|]. eapply like_bind; [apply like_refl|]. intros r ? <-. constructor.
  exists [r]. split; auto. split; auto. constructor.
Qed.
Lemma cmd_pieces acc cmd : like (fun r ps => more acc ps (fun qs => length qs = length (pieces cmd) /\ joins qs r)) (exec_in_db cmd) (client_from acc (pieces cmd)).
Proof.
  destruct cmd as [|n [|k ks]]; try apply one_piece. unfold pieces.
  destruct (cmd_is "del" (n :: k :: ks)) eqn:E1; [|destruct (cmd_is "exists" (n :: k :: ks)) eqn:E2; [|destruct (cmd_is "mget" (n :: k :: ks)) eqn:E3]]; cbn [orb].
  - apply cmd_is_named in E1. rewrite (exec_named n (k :: ks) "del" del_key) by (auto; reflexivity). unfold del_key.
    eapply like_bind_l; [apply (del_pieces n (k :: ks) E1 0 acc)|]. intros r ps (qs & -> & H1 & ns & -> & ->). constructor. exists (map RInt ns).
    split; auto. split; [rewrite !map_length in *; exact H1|]. apply join_sum.
  - apply cmd_is_named in E2. rewrite (exec_named n (k :: ks) "exists" exists_key) by (auto; reflexivity). unfold exists_key.
    eapply like_bind_l; [apply (exists_pieces n (k :: ks) E2 0 acc)|]. intros r ps (qs & -> & H1 & ns & -> & ->). constructor. exists (map RInt ns).
    split; auto. split; [rewrite !map_length in *; exact H1|]. apply join_sum.
  - apply cmd_is_named in E3. rewrite (exec_named n (k :: ks) "mget" mget_string) by (auto; reflexivity). unfold mget_string.
    eapply like_bind_l; [apply (mget_pieces n (k :: ks) E3 [] acc)|]. intros r ps (qs & -> & H1 & ls & -> & ->). constructor. exists (map (fun l => RArr (Some l)) ls).
    split; auto. split; [rewrite !map_length in *; exact H1|]. apply join_list.
  - apply one_piece.
Qed.
Lemma client_app a b : forall acc, like eq (pbind (client_from acc a) (fun acc' => client_from acc' b)) (client_from acc (a ++ b)).
Proof.
  induction a as [|c a IH]; intros acc; cbn [client_from app]; [apply like_refl|].
  eapply like_eq_l; [apply like_assoc'|]. eapply like_bind; [apply like_refl|]. intros x ? <-. apply IH.
Qed.
Lemma client_pieces cmds : forall acc acc',
  like (fun rs ps => exists rs' qs, rs = acc ++ rs' /\ ps = acc' ++ qs /\ joined cmds qs rs') (client_from acc cmds) (client_from acc' (flat_map pieces cmds)).
Proof.
  induction cmds as [|cmd cmds IH]; intros acc acc'; cbn [client_from flat_map].
  - constructor. exists [], []. rewrite !app_nil_r. repeat split; constructor.
  - eapply like_eq_r; [|apply client_app]. eapply like_bind; [apply cmd_pieces|]. intros r ps (qs & -> & H1 & H2). eapply like_mono; [|apply IH].
    cbn. intros rs ps (rs' & qs' & -> & -> & H). exists (r :: rs'), (qs ++ qs'). rewrite <- !app_assoc. repeat split. econstructor; eauto.
Qed.

(** The pieces are atomic, set no further deadlines and name no further keys. *)
Lemma pieces_of cmd p : p ∈ pieces cmd ->
  p = cmd /\ (cmd_is "del" cmd || cmd_is "exists" cmd || cmd_is "mget" cmd = true -> (length cmd <= 2)%nat) \/
  exists n k ks, cmd = n :: ks /\ k ∈ ks /\ p = [n; k] /\ (named n "del" \/ named n "exists" \/ named n "mget").
Proof.
  unfold pieces. destruct cmd as [|n [|k ks]]; try (intros H; apply elem_of_list_singleton in H; left; split; [exact H|cbn; lia]).
  destruct (cmd_is "del" (n :: k :: ks) || cmd_is "exists" (n :: k :: ks) || cmd_is "mget" (n :: k :: ks)) eqn:E; intros H.
  - right. apply elem_of_list_In, in_map_iff in H as (x & <- & H). exists n, x, (k :: ks). split; auto. split; [apply elem_of_list_In; exact H|]. split; auto.
    apply orb_true_iff in E as [E|E]; [apply orb_true_iff in E as [E|E]|]; apply cmd_is_named in E; auto.
  - apply elem_of_list_singleton in H. left. split; auto. discriminate.
Qed.
Lemma cmd_is_other s n args : to_lower (str n) <> B s -> cmd_is s (n :: args) = false.
Proof. intros H. apply bool_decide_eq_false_2. exact H. Qed.
Lemma piece_named s n k : (named n "del" \/ named n "exists" \/ named n "mget") -> bool_decide (s = "del"%string \/ s = "exists"%string \/ s = "mget"%string) = false ->
  cmd_is s [n; k] = false.
Proof.
  intros H Hs. apply bool_decide_eq_false in Hs. apply cmd_is_other. intros E. apply Hs.
  assert (I : forall a b, B a = B b -> a = b) by (intros a b Hab; unfold B in Hab; apply (f_equal string_of_list_ascii) in Hab; rewrite !string_of_list_ascii_of_string in Hab; exact Hab).
  unfold named in H. rewrite E in H. destruct H as [H|[H|H]]; apply I in H; auto.
Qed.
Lemma piece_one_step cmd p : locked cmd -> p ∈ pieces cmd -> one_step p.
Proof.
  intros [H1 H2] Hp. apply pieces_of in Hp as [[-> H]|(n & k & ks & -> & _ & -> & Hn)].
  - split; [exact H1|]. split; [exact H2|]. intros H3. apply H. rewrite !orb_true_iff. destruct H3 as [->|[->| ->]]; auto.
  - split; [apply piece_named; auto; apply bool_decide_eq_false; intros [E|[E|E]]; discriminate|]. split; [apply piece_named; auto; apply bool_decide_eq_false; intros [E|[E|E]]; discriminate|]. cbn. lia.
Qed.
Lemma piece_far T lim cmd p : far_deadlines T lim cmd -> p ∈ pieces cmd -> far_deadlines T lim p.
Proof.
  intros H1 Hp. apply pieces_of in Hp as [[-> H]|(n & k & ks & -> & _ & -> & Hn)]; [exact H1|].
  split.
  - intros _ v Hv. discriminate.
  - intros E. rewrite piece_named in E; [discriminate|auto|apply bool_decide_eq_false; intros [E'|[E'|E']]; discriminate].
Qed.
Lemma piece_keys cmd p key : p ∈ pieces cmd -> key ∈ key_args p -> key ∈ key_args cmd.
Proof.
  intros Hp. apply pieces_of in Hp as [[-> H]|(n & k & ks & -> & Hk & -> & Hn)]; [auto|].
  unfold key_args. assert (E : keykind_of (to_lower (str n)) = KAll) by (destruct Hn as [H|[H|H]]; rewrite H; reflexivity). rewrite E. cbn.
  intros H. apply elem_of_list_singleton in H as ->. apply elem_of_list_fmap_1. exact Hk.
Qed.

Lemma in_pieces (cs : list (list command)) cmds p : cmds ∈ map (flat_map pieces) cs -> p ∈ cmds -> exists cmds' cmd, cmds' ∈ cs /\ cmd ∈ cmds' /\ p ∈ pieces cmd.
Proof.
  intros H1 H2. apply elem_of_list_fmap in H1 as (cmds' & -> & H1). apply elem_of_list_In, in_flat_map in H2 as (cmd & H2 & H3).
  exists cmds', cmd. rewrite !elem_of_list_In in *. auto.
Qed.
Lemma csteps_len {A} T (c c' : conf A) : rtc (cstep T) c c' -> length (ths c') = length (ths c).
Proof. induction 1 as [|x y z Hs _ IH]; auto. rewrite IH. destruct Hs; cbn; rewrite insert_length; auto. Qed.
Lemma linearizable_pieces (T : Z -> Prop) lim d cs c rss : (exists t, T t) -> (forall t, T t -> t <= lim) ->
  each locked cs -> each (far_deadlines T lim) cs -> (forall key t, names cs key -> exps d !! key = Some t -> lim <= t) ->
  rtc (cstep T) (clients d cs) c -> map tcode (ths c) = map Ret rss ->
  exists D pss, rtc (turn T) (d, before (map (flat_map pieces) cs)) (D, served pss) /\ length pss = length cs /\
    (forall i cmds ps rs, cs !! i = Some cmds -> pss !! i = Some ps -> rss !! i = Some rs -> joined cmds ps rs) /\
    dict D = dict (cdb c) /\ exps D = exps (cdb c).
Proof.
  intros Ht HT H1 H2 Ha R Hr.
  set (Rel i rs ps := exists cmds, cs !! i = Some cmds /\ joined cmds ps rs).
  assert (Hc0 : clike Rel (clients d cs) (clients d (map (flat_map pieces) cs))).
  { do 2 (split; [reflexivity|]). cbn. split; [rewrite !map_length; reflexivity|]. intros i t u Hi Hu.
    apply list_lookup_fmap_inv in Hi as (p & -> & Hi). apply list_lookup_fmap_inv in Hi as (cmds & -> & Hi).
    apply list_lookup_fmap_inv in Hu as (q & -> & Hu). apply list_lookup_fmap_inv in Hu as (cmds' & -> & Hu).
    apply list_lookup_fmap_inv in Hu as (cmds'' & -> & Hu). rewrite Hi in Hu. injection Hu as <-. split; [reflexivity|]. cbn.
    eapply like_mono; [|apply client_pieces]. cbn. intros rs ps (rs' & qs & -> & -> & H). exists cmds. auto. }
  destruct (like_csteps _ _ _ _ _ R Hc0) as (c' & R' & E1 & _ & E3 & E4).
  assert (Hlen : length (ths c) = length cs) by (rewrite (csteps_len T _ _ R); cbn; rewrite !map_length; reflexivity).
  assert (Hret : exists pss, map tcode (ths c') = map Ret pss).
  { assert (HF : Forall (fun t => exists ps, tcode t = Ret ps) (ths c')).
    { apply Forall_lookup. intros i u Hu. destruct (lookup_lt_is_Some_2 (ths c) i) as [t Hi]; [rewrite E3; eapply lookup_lt_Some; eauto|].
      destruct (E4 _ _ _ Hi Hu) as [_ HL].
      assert (E : map tcode (ths c) !! i = Some (tcode t)) by (rewrite list_lookup_fmap, Hi; auto).
      rewrite Hr in E. apply list_lookup_fmap_inv in E as (rs & E & _). rewrite E in HL. inversion HL; eauto. }
    clear -HF. induction HF as [|t l [ps Hps] _ [pss IH]]; [exists []; auto|]. exists (ps :: pss). cbn. rewrite Hps. f_equal. exact IH. }
  destruct Hret as [pss Hps].
  destruct (linearizable T lim d (map (flat_map pieces) cs) c' pss Ht HT) as (D & RD & D1 & D2); auto.
  - intros cmds p Hx Hy. destruct (in_pieces _ _ _ Hx Hy) as (cmds' & cmd & Ha1 & Ha2 & Ha3). eapply piece_one_step; eauto.
  - intros cmds p Hx Hy. destruct (in_pieces _ _ _ Hx Hy) as (cmds' & cmd & Ha1 & Ha2 & Ha3). eapply piece_far; eauto.
  - intros key t (cmds & p & Hx & Hy & Hz) Hk. destruct (in_pieces _ _ _ Hx Hy) as (cmds' & cmd & Ha1 & Ha2 & Ha3). apply (Ha key t); auto.
    exists cmds', cmd. eauto using piece_keys.
  - exists D, pss. split; [exact RD|]. apply (f_equal length) in Hps as Hl. rewrite !map_length in Hl. split; [lia|]. split; [|rewrite E1; auto].
    intros i cmds ps rs Hi Hp Hq.
    destruct (lookup_lt_is_Some_2 (ths c) i) as [t Ht1]; [rewrite Hlen; eapply lookup_lt_Some; eauto|].
    destruct (lookup_lt_is_Some_2 (ths c') i) as [u Hu1]; [rewrite <- E3; eapply lookup_lt_Some; eauto|].
    destruct (E4 _ _ _ Ht1 Hu1) as [_ HL].
    assert (E : map tcode (ths c) !! i = Some (tcode t)) by (rewrite list_lookup_fmap, Ht1; auto).
    assert (E' : map tcode (ths c') !! i = Some (tcode u)) by (rewrite list_lookup_fmap, Hu1; auto).
    rewrite Hr in E. rewrite Hps in E'. rewrite list_lookup_fmap, Hq in E. rewrite list_lookup_fmap, Hp in E'. injection E as E. injection E' as E'.
    rewrite <- E, <- E' in HL. inversion HL; subst. destruct H3 as (cmds' & Hi' & HJ). rewrite Hi in Hi'. injection Hi' as <-. exact HJ.
Qed.
End WithParams.
