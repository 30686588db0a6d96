(** SETNX on one key by any number of clients. *)
From Verif Require Export Keeps.

Section WithParams.
Context {P : Setup} (T : Z -> Prop) (k0 : bytes).

(** [nx Q won seen p]: [won] are the values the goroutine has stored under [k0] so far; [seen]: it knows that the key is there. *)
Inductive nx {A} (Q : list val -> bool -> A -> Prop) : list val -> bool -> prog A -> Prop :=
| X_ret w s a : Q w s a -> nx Q w s (Ret a)
| X_crash w s : nx Q w s Crash
| X_hang w s : nx Q w s Hang
| X_now w s k : (forall t, nx Q w s (k t)) -> nx Q w s (Now k)
| X_range w s l k : (forall l', nx Q w s (k l')) -> nx Q w s (Range l k)
| X_eget w s key k : (forall x, (key = k0 -> x = None) -> nx Q w s (k x)) -> nx Q w s (EGet key k)
| X_dget w s key k : key <> k0 -> (forall x, nx Q w s (k x)) -> nx Q w s (DGet key k)
| X_dget0 w s k : (s = false -> nx Q w s (k None)) -> (forall x, nx Q w true (k (Some x))) -> nx Q w s (DGet k0 k)
| X_dset w s key v k : key <> k0 -> (forall x, nx Q w s (k x)) -> nx Q w s (DSet key v k)
| X_dset0 w s v k : (forall x, nx Q (v :: w) true (k x)) -> nx Q w s (DSet k0 (VStr v) k)
| X_dmut w s key v k : key <> k0 -> nx Q w s k -> nx Q w s (DMut key v k)
| X_ddel w s key k : key <> k0 -> (forall x, nx Q w s (k x)) -> nx Q w s (DDel key k)
| X_dseg w s i k : (forall x, nx Q w s (k x)) -> nx Q w s (DSeg i k)
| X_cntload w s k : (forall c, nx Q w s (k c)) -> nx Q w s (CntLoad k)
| X_cntstore w s n k : nx Q w s k -> nx Q w s (CntStore n k)
| X_eset w s key t k : key <> k0 -> nx Q w s k -> nx Q w s (ESet key t k)
| X_edel w s key k : key <> k0 -> (forall x, nx Q w s (k x)) -> nx Q w s (EDel key k)
| X_acq w s pos m k : nx Q w s k -> nx Q w s (Acq pos m k)
| X_rel w s pos m k : nx Q w s k -> nx Q w s (Rel pos m k).

Lemma nx_bind {A C} (Q : list val -> bool -> A -> Prop) (R : list val -> bool -> C -> Prop) w s p f :
  nx Q w s p -> (forall w s a, Q w s a -> nx R w s (f a)) -> nx R w s (pbind p f).
Proof. intros Hp Hf. induction Hp; cbn; auto; try (constructor; auto; fail). Qed.
Lemma nx_mono {A} (Q R : list val -> bool -> A -> Prop) w s p : nx Q w s p -> (forall w s a, Q w s a -> R w s a) -> nx R w s p.
Proof. intros Hp Hf. induction Hp; try (constructor; auto; fail). Qed.
Lemma wf_nx {A} (K : bytes -> Prop) u s h' h (p : prog A) : wf K u s h' h p -> ~ K k0 -> forall w b, nx (fun w' b' _ => w' = w /\ b' = b) w b p.
Proof. intros Hw HK w b. induction Hw; try (constructor; auto; intros ->; contradiction). Qed.

(** What each goroutine knows. *)
Definition nx_ok (A : Type) (Qs : list (list val -> bool -> A -> Prop)) (c : conf A) (g : list (list val * bool)) : Prop :=
  exps (cdb c) !! k0 = None /\
  (forall i w s, g !! i = Some (w, s) -> s = true -> is_Some (dict (cdb c) !! k0)) /\
  length g = length Qs /\ length (ths c) = length Qs /\
  forall i t w s Q, ths c !! i = Some t -> g !! i = Some (w, s) -> Qs !! i = Some Q -> nx Q w s (tcode t).
Definition owned (d : db) (g : list (list val * bool)) : Prop := forall v, dict d !! k0 = Some v -> exists i w s x, g !! i = Some (w, s) /\ x ∈ w /\ v = VStr x.

Lemma nx_prim {A} (Q : list val -> bool -> A -> Prop) d p d' p' w s : prim T d p d' p' -> nx Q w s p -> exps d !! k0 = None -> (s = true -> is_Some (dict d !! k0)) ->
  exps d' !! k0 = None /\
  exists w' s', nx Q w' s' p' /\ (s = true -> s' = true) /\ (s' = true -> is_Some (dict d' !! k0)) /\ (is_Some (dict d !! k0) -> is_Some (dict d' !! k0)) /\
    (forall x, x ∈ w -> x ∈ w') /\ (dict d' !! k0 = dict d !! k0 \/ exists x, dict d' !! k0 = Some (VStr x) /\ x ∈ w').
Proof.
  intros H Hn He Hs. destruct H; inversion Hn; subst; cbn;
    (split; [first [assumption|rewrite lookup_insert_ne; assumption|rewrite lookup_delete_ne; assumption]|]);
    try (exists w, s; split; [auto; fail|]; repeat (split; [auto; fail|]); left;
         rewrite ?lookup_insert_ne, ?lookup_delete_ne, ?lookup_alter_ne by congruence; reflexivity).
  - destruct (dict d !! k0) as [x|] eqn:E.
    + exists w, true. repeat split; eauto.
    + assert (s = false) by (destruct s; auto; destruct (Hs eq_refl); discriminate). subst. exists w, false. repeat split; eauto.
  - exists w, s. repeat split; auto; try left; rewrite lookup_insert_ne by congruence; auto.
  - eexists _, true. split; [eauto|]. repeat split; auto; rewrite ?lookup_insert; eauto using elem_of_list_further. right. eexists. split; [reflexivity|left].
  - exists w, s. repeat split; auto; try left; rewrite lookup_alter_ne by congruence; auto.
  - exists w, s. repeat split; auto; try left; rewrite lookup_delete_ne by congruence; auto.
  - exists w, s. repeat split; auto. match goal with H : forall x, _ -> nx _ _ _ _ |- _ => apply H end. intros ->. auto.
Qed.
Lemma nx_cstep {A} Qs (c c' : conf A) g : cstep T c c' -> nx_ok A Qs c g ->
  exists g', nx_ok A Qs c' g' /\ (owned (cdb c) g -> owned (cdb c') g') /\ (is_Some (dict (cdb c) !! k0) -> is_Some (dict (cdb c') !! k0)).
Proof.
  intros Hs (He & Hg & Hl & Hl' & Ht). destruct Hs as [d L ts i p d' p' Hi Hp| | | | |].
  1: {
    cbn in *.
    assert (Hlt : (i < length g)%nat) by (rewrite Hl, <- Hl'; apply lookup_lt_is_Some; eauto).
    destruct (g !! i) as [[w s]|] eqn:Eg; [|apply lookup_ge_None in Eg; lia].
    destruct (Qs !! i) as [Q|] eqn:EQ; [|apply lookup_ge_None in EQ; lia].
    pose proof (Ht _ _ _ _ _ Hi Eg EQ) as Hn. cbn in Hn.
    destruct (nx_prim Q _ _ _ _ _ _ Hp Hn He (Hg _ _ _ Eg)) as (He' & w' & s' & Hn' & Hm & Hs' & Hd & Hw & Hv).
    exists (<[i := (w', s')]> g). split; [split; [|split; [|split; [|split]]]|split]; cbn.
    - exact He'.
    - intros j w1 s1 Hj ->. apply list_lookup_insert_Some in Hj as [(-> & Hj & _)|(Hne & Hj)].
      + injection Hj as -> ->. auto.
      + apply Hd. eapply Hg; eauto.
    - rewrite insert_length. auto.
    - rewrite insert_length. auto.
    - intros j t1 w1 s1 Q1 Hj1 Hj2 Hj3. apply list_lookup_insert_Some in Hj1 as [(-> & <- & _)|(Hne & Hj1)].
      + rewrite list_lookup_insert in Hj2 by auto. injection Hj2 as <- <-. replace Q1 with Q by congruence. exact Hn'.
      + rewrite list_lookup_insert_ne in Hj2 by auto. eauto.
    - intros Ho v Hd'. destruct Hv as [Hv|(x & Hx & Hxw)].
      + rewrite Hv in Hd'. destruct (Ho _ Hd') as (j & w1 & s1 & x & Hj & Hx & ->). destruct (decide (j = i)) as [->|Hne].
        * rewrite Eg in Hj. injection Hj as <- <-. exists i, w', s', x. rewrite list_lookup_insert by auto. auto.
        * exists j, w1, s1, x. rewrite list_lookup_insert_ne by auto. auto.
      + exists i, w', s', x. rewrite list_lookup_insert by auto. split; [auto|]. split; [auto|congruence].
    - exact Hd. }
  all: exists g; cbn in *; split; [|auto]; split; [exact He|]; split; [exact Hg|]; split; [exact Hl|]; split; [cbn; rewrite insert_length; exact Hl'|];
    intros j t1 w1 s1 Q1 Hj1 Hj2 Hj3; apply list_lookup_insert_Some in Hj1 as [(-> & <- & _)|(Hne & Hj1)]; [|eauto]; cbn;
    match goal with H : _ !! _ = Some (mkT _ _) |- _ => pose proof (Ht _ _ _ _ _ H Hj2 Hj3) as Hn end; cbn in Hn; auto; inversion Hn; subst; auto.
Qed.
Lemma nx_rtc {A} Qs (c c' : conf A) : rtc (cstep T) c c' -> forall g, nx_ok A Qs c g ->
  exists g', nx_ok A Qs c' g' /\ (owned (cdb c) g -> owned (cdb c') g').
Proof.
  induction 1 as [c|c c1 c' Hs _ IH]; intros g Hg; [eauto|]. destruct (nx_cstep _ _ _ _ Hs Hg) as (g1 & H1 & H2 & _).
  destruct (IH _ H1) as (g' & H3 & H4). eauto.
Qed.

(** One SETNX. *)
Lemma nx_setnx n k v w s : str k = k0 -> nx (fun w' s' r => s' = true /\ (r = RInt 0 /\ w' = w \/ s = false /\ r = RInt 1 /\ w' = v :: w)) w s (setnx_string [n; k; v]).
Proof.
  intros Hk. unfold setnx_string. cbv zeta. rewrite Hk. unfold delete_expired_key, check_expire, dict_get, with_lock, lock, unlock, dict_set. cbn.
  apply X_eget. intros x Hx. rewrite (Hx eq_refl). cbn. apply X_dget0; [|intros x'; constructor; auto].
  intros ->. apply X_acq, X_dset0. intros []; cbn; repeat first [apply X_cntload; intros ?|apply X_cntstore|apply X_rel]; apply X_ret; auto 6.
Qed.
(** What is known when a client has received [rs] in answer to [cmds]. *)
Definition nx_client (pres : bool) (cmds : list command) (w : list val) (s : bool) (rs : list rdata) : Prop :=
  length rs = length cmds /\ (pres = true -> s = true) /\
  (forall v, v ∈ w -> exists j cmd, cmds !! j = Some cmd /\ setnx_on k0 cmd v /\ rs !! j = Some (RInt 1)) /\
  (forall j cmd v, cmds !! j = Some cmd -> setnx_on k0 cmd v -> s = true /\ (rs !! j = Some (RInt 0) \/ pres = false /\ rs !! j = Some (RInt 1))).
Lemma nx_client_step pres cmds w s rs cmd r : nx_client pres cmds w s rs -> (forall v, ~ setnx_on k0 cmd v) -> nx_client pres (cmds ++ [cmd]) w s (rs ++ [r]).
Proof.
  intros (Hl & Hp & Hw & Ha) Hc. split; [rewrite !app_length; cbn; lia|]. split; [auto|]. split.
  - intros v Hv. destruct (Hw _ Hv) as (j & c & H1 & H2 & H3). exists j, c. eauto using lookup_app_l_Some.
  - intros j c v Hj Hs. apply lookup_app_Some in Hj as [Hj|[Hj1 Hj2]].
    + destruct (Ha _ _ _ Hj Hs) as [? [?|[? ?]]]; split; auto; [left|right; split; auto]; apply lookup_app_l_Some; auto.
    + apply list_lookup_singleton_Some in Hj2 as [_ <-]. edestruct Hc; eauto.
Qed.
Lemma nx_client_setnx pres cmds w s rs n k v w' s' r : str k = k0 -> nx_client pres cmds w s rs ->
  s' = true -> r = RInt 0 /\ w' = w \/ s = false /\ r = RInt 1 /\ w' = v :: w -> setnx_on k0 [n; k; v] v -> nx_client pres (cmds ++ [[n; k; v]]) w' s' (rs ++ [r]).
Proof.
  intros Hk (Hl & Hp & Hw & Ha) -> Hr Hs. split; [rewrite !app_length; cbn; lia|]. split; [auto|].
  assert (Hw' : forall v, v ∈ w -> exists j cmd, (cmds ++ [[n; k; v]]) !! j = Some cmd /\ setnx_on k0 cmd v /\ (rs ++ [r]) !! j = Some (RInt 1)).
  { intros v' Hv. destruct (Hw _ Hv) as (j & c & H1 & H2 & H3). exists j, c. eauto using lookup_app_l_Some. }
  split.
  - destruct Hr as [[-> ->]|(_ & -> & ->)].
    + intros v' Hv. destruct (Hw _ Hv) as (j & c & H1 & H2 & H3). exists j, c. eauto using lookup_app_l_Some.
    + intros v' [->|Hv]%elem_of_cons.
      * exists (length cmds), [n; k; v]. rewrite (list_lookup_middle _ _ _ _ eq_refl). split; [auto|]. split; [auto|]. rewrite <- Hl. apply (list_lookup_middle _ [] _ _ eq_refl).
      * destruct (Hw _ Hv) as (j & c & H1 & H2 & H3). exists j, c. eauto using lookup_app_l_Some.
  - intros j c v' Hj Hs'. apply lookup_app_Some in Hj as [Hj|[Hj1 Hj2]].
    + destruct (Ha _ _ _ Hj Hs') as [? [?|[? ?]]]; split; auto; [left|right; split; auto]; apply lookup_app_l_Some; auto.
    + split; [auto|]. apply list_lookup_singleton_Some in Hj2 as [Hj2 <-]. replace j with (length rs) by lia.
      rewrite (list_lookup_middle _ [] _ _ eq_refl). destruct Hr as [[-> _]|(Hs0 & -> & _)]; [auto|]. right. split; auto. destruct pres; auto. rewrite Hp in Hs0; auto.
Qed.
Lemma nx_clients pres cmds : (forall cmd, cmd ∈ cmds -> leaves_alone k0 cmd \/ exists v, setnx_on k0 cmd v) -> forall pre acc w s, nx_client pres pre w s acc ->
  nx (nx_client pres (pre ++ cmds)) w s (client_from acc cmds).
Proof.
  induction cmds as [|c r IH]; intros Hc pre acc w s Hi; [rewrite app_nil_r; constructor; auto|].
  change (client_from acc (c :: r)) with (x <- exec_in_db c ;; client_from (acc ++ [x]) r).
  replace (pre ++ c :: r) with ((pre ++ [c]) ++ r) by (rewrite <- app_assoc; reflexivity).
  destruct (Hc c ltac:(left)) as [[H1 H2]|[v Hv]].
  - eapply nx_bind; [apply (wf_nx _ _ _ _ _ _ (exec_wf c)); intros [H|H]; [contradiction|congruence]|].
    cbn beta. intros w' s' x [-> ->]. apply IH; [intros; apply Hc; right; auto|]. apply nx_client_step; auto.
    intros v (n & k & -> & Hn & Hk). apply H1. cbn. rewrite <- Hk. unfold key_args. unfold named in Hn. rewrite Hn. cbn. left.
  - pose proof Hv as (n & k & -> & Hn & Hk). erewrite (exec_named _ _ _ _ Hn) by reflexivity.
    eapply nx_bind; [apply (nx_setnx n k v w s Hk)|]. cbn beta. intros w' s' x [Hs Hx]. apply IH; [intros; apply Hc; right; auto|].
    eapply nx_client_setnx; eauto.
Qed.
End WithParams.

Section WithParams2.
Context {P : Setup} (T : Z -> Prop) (k0 : bytes).
Lemma nx_start pres d cs c rss : each (fun cmd => leaves_alone k0 cmd \/ exists v, setnx_on k0 cmd v) cs -> exps d !! k0 = None -> (pres = true -> is_Some (dict d !! k0)) ->
  rtc (cstep T) (clients d cs) c -> map tcode (ths c) = map Ret rss ->
  exists g, nx_ok k0 (list rdata) (map (nx_client k0 pres) cs) c g /\ (dict d !! k0 = None -> owned k0 (cdb c) g).
Proof.
  intros HE He Hp R Hr.
  destruct (nx_rtc T k0 (map (nx_client k0 pres) cs) _ _ R (replicate (length cs) ([], pres))) as (g & Hg & Ho).
  - split; [exact He|]. split; [|split; [|split]].
    + intros i w s Hi ->. apply lookup_replicate in Hi as [[= -> <-] _]. auto.
    + rewrite replicate_length, map_length. reflexivity.
    + cbn. rewrite !map_length. reflexivity.
    + intros i t w s Q Hi Hg HQ. apply lookup_replicate in Hg as [[= -> ->] _]. cbn in Hi.
      rewrite list_lookup_fmap in HQ. destruct (cs !! i) as [cmds|] eqn:Ec; [|discriminate]. injection HQ as <-.
      rewrite !list_lookup_fmap, Ec in Hi. injection Hi as <-. cbn [tcode].
      apply (nx_clients k0 pres cmds) with (pre := []).
      * intros cmd Hc. eapply HE; [eapply elem_of_list_lookup_2; exact Ec|exact Hc].
      * split; [reflexivity|]. split; [auto|]. split; [intros v Hv%elem_of_nil; contradiction|intros j ? ? Hj; discriminate].
  - exists g. split; [exact Hg|]. intros Hd. apply Ho. intros v Hv. cbn in Hv. congruence.
Qed.
(** The replies of the clients, from what is known at the end. *)
Lemma nx_end pres cs (c : conf (list rdata)) rss g : nx_ok k0 (list rdata) (map (nx_client k0 pres) cs) c g -> map tcode (ths c) = map Ret rss ->
  forall i cmds w s, cs !! i = Some cmds -> g !! i = Some (w, s) -> exists rs, rss !! i = Some rs /\ nx_client k0 pres cmds w s rs.
Proof.
  intros (_ & _ & Hl & Hl' & Ht) Hr i cmds w s Hc Hg.
  assert (Hlt : (i < length (ths c))%nat) by (rewrite Hl', map_length; eauto using lookup_lt_Some).
  destruct (lookup_lt_is_Some_2 _ _ Hlt) as [t Hi]. 
  assert (E : map tcode (ths c) !! i = Some (tcode t)) by (rewrite list_lookup_fmap, Hi; reflexivity).
  rewrite Hr, list_lookup_fmap in E. destruct (rss !! i) as [rs|] eqn:Ers; [|discriminate]. injection E as E.
  exists rs. split; [auto|]. assert (H := Ht i t w s (nx_client k0 pres cmds) Hi Hg ltac:(rewrite list_lookup_fmap, Hc; reflexivity)). rewrite <- E in H. inversion H. auto.
Qed.
Theorem setnx_wins d cs c rss : each (fun cmd => leaves_alone k0 cmd \/ exists v, setnx_on k0 cmd v) cs -> exps d !! k0 = None -> dict d !! k0 = None ->
  rtc (cstep T) (clients d cs) c -> map tcode (ths c) = map Ret rss ->
  (forall i j cmds cmd v, cs !! i = Some cmds -> cmds !! j = Some cmd -> setnx_on k0 cmd v ->
     exists rs, rss !! i = Some rs /\ (rs !! j = Some (RInt 0) \/ rs !! j = Some (RInt 1))) /\
  ((exists cmds cmd v, cmds ∈ cs /\ cmd ∈ cmds /\ setnx_on k0 cmd v) ->
     exists i j cmds cmd v rs, cs !! i = Some cmds /\ cmds !! j = Some cmd /\ setnx_on k0 cmd v /\ rss !! i = Some rs /\ rs !! j = Some (RInt 1) /\ dict (cdb c) !! k0 = Some (VStr v)).
Proof.
  intros HE He Hd R Hr. destruct (nx_start false d cs c rss HE He ltac:(discriminate) R Hr) as (g & Hg & Ho). specialize (Ho Hd).
  pose proof (nx_end _ _ _ _ _ Hg Hr) as Hend. destruct Hg as (_ & Hg & Hl & Hl' & Ht).
  assert (Hgi : forall i cmds, cs !! i = Some cmds -> exists w s, g !! i = Some (w, s)).
  { intros i cmds Hi. assert (H : (i < length g)%nat) by (rewrite Hl, map_length; eauto using lookup_lt_Some). destruct (lookup_lt_is_Some_2 _ _ H) as [[w s] ?]. eauto. }
  split.
  - intros i j cmds cmd v Hi Hj Hv. destruct (Hgi _ _ Hi) as (w & s & E). destruct (Hend _ _ _ _ Hi E) as (rs & Hrs & _ & _ & _ & Ha).
    exists rs. split; [auto|]. destruct (Ha _ _ _ Hj Hv) as [_ [?|[_ ?]]]; auto.
  - intros (cmds & cmd & v & Hi & Hj & Hv). apply elem_of_list_lookup in Hi as [i Hi]. apply elem_of_list_lookup in Hj as [j Hj].
    destruct (Hgi _ _ Hi) as (w & s & E). destruct (Hend _ _ _ _ Hi E) as (rs & Hrs & _ & _ & _ & Ha). destruct (Ha _ _ _ Hj Hv) as [-> _].
    destruct (Hg _ _ _ E eq_refl) as [x Hx]. destruct (Ho _ Hx) as (i' & w' & s' & y & E' & Hy & ->).
    assert (Hlt : (i' < length cs)%nat) by (rewrite <- (map_length (nx_client k0 false)), <- Hl; eauto using lookup_lt_Some).
    destruct (lookup_lt_is_Some_2 _ _ Hlt) as [cmds' Hi']. destruct (Hend _ _ _ _ Hi' E') as (rs' & Hrs' & _ & _ & Hw & _).
    destruct (Hw _ Hy) as (j' & cmd' & Hj' & Hv' & Hr'). exists i', j', cmds', cmd', y, rs'. auto 10.
Qed.
Theorem setnx_loses d cs c rss i j cmds cmd v : each (fun cmd => leaves_alone k0 cmd \/ exists v, setnx_on k0 cmd v) cs -> exps d !! k0 = None -> is_Some (dict d !! k0) ->
  rtc (cstep T) (clients d cs) c -> map tcode (ths c) = map Ret rss ->
  cs !! i = Some cmds -> cmds !! j = Some cmd -> setnx_on k0 cmd v -> exists rs, rss !! i = Some rs /\ rs !! j = Some (RInt 0).
Proof.
  intros HE He Hd R Hr Hi Hj Hv. destruct (nx_start true d cs c rss HE He ltac:(auto) R Hr) as (g & Hg & _).
  pose proof (nx_end _ _ _ _ _ Hg Hr) as Hend. destruct Hg as (_ & _ & Hl & _).
  assert (H : (i < length g)%nat) by (rewrite Hl, map_length; eauto using lookup_lt_Some). destruct (lookup_lt_is_Some_2 _ _ H) as [[w s] E].
  destruct (Hend _ _ _ _ Hi E) as (rs & Hrs & _ & _ & _ & Ha). exists rs. split; [auto|]. destruct (Ha _ _ _ Hj Hv) as [_ [?|[? _]]]; [auto|discriminate].
Qed.
End WithParams2.
