(** Clients that share no keys do not disturb each other. *)
From Verif Require Export SpecApart PartsProofs RefDet.

Section Local.
Context {P : Setup} (T : Z -> Prop) (lim : Z).
(** The same under the keys of [K]. *)
Definition same_on (K : bytes -> Prop) (d e : db) : Prop := forall k, K k -> same_at (data_of d) (data_of e) k.
Lemma wf_frame {A} (T' : Z -> Prop) K u h' h (p : prog A) : Wf.wf K u false h' h p -> forall d out, runs T' d p out ->
  forall r d', out = Done r d' -> forall k, ~ K k -> same_at (data_of d) (data_of d') k.
Proof.
  induction 1; intros d out R; inversion R; subst; intros r d' E x Hx; try discriminate.
  all: try (injection E as <- <-; apply same_at_refl).
  all: try match goal with IH : forall y d out, runs _ d (?k y) out -> _, R' : runs _ _ (?k _) _ |- _ => pose proof (IH _ _ _ R' _ _ E x Hx) as Q end.
  all: try match goal with IH : forall d out, runs _ d ?k out -> _, R' : runs _ _ ?k _ |- _ => pose proof (IH _ _ R' _ _ E x Hx) as Q end.
  all: try exact Q.
  all: match goal with H : ?KK ?key, Hx : ~ ?KK ?y |- _ => assert (y <> key) by (intros E0; apply Hx; rewrite E0; exact H) end.
  all: destruct Q as [Q1 Q2]; split; cbn in *; [rewrite <- Q1|rewrite <- Q2]; auto; symmetry.
  all: first [apply lookup_insert_ne|apply lookup_alter_ne|apply lookup_delete_ne]; auto.
Qed.
(** A command sees only its keys. *)
Ltac son Hs := let x := fresh in let Hx := fresh in let S1 := fresh in let S2 := fresh in
  intros x Hx; destruct (Hs x Hx) as [S1 S2]; cbn in S1, S2; split; cbn; auto;
  match goal with |- context [?a !! x] => match goal with |- context [@insert _ _ _ _ ?key _ _] => destruct (decide (x = key)) as [->|] | |- context [alter _ ?key _] => destruct (decide (x = key)) as [->|]
    | |- context [delete ?key _] => destruct (decide (x = key)) as [->|] end end;
  rewrite ?lookup_insert, ?lookup_alter, ?lookup_delete, ?lookup_insert_ne, ?lookup_alter_ne, ?lookup_delete_ne by auto; congruence.
Lemma post_runs {A} now (r0 : A) p : post r0 p -> forall d e r d' (K : bytes -> Prop), same_on K d e -> runs (eq now) d p (Done r d') -> exists e', runs (eq now) e p (Done r e') /\ same_on K d' e'.
Proof.
  induction 1; intros d e r d' K Hs R; inversion R; subst; [exists e; split; [constructor|auto]|]. edestruct IHpost as (e' & R' & S'); eauto. exists e'. split; [constructor|]; auto.
Qed.
Lemma wf_local {A} K u h' ph (p : prog A) now : T now -> LinProofs.single T K lim ph p -> forall h, Wf.wf K u false h' h p ->
  forall d e r d', alive K lim (data_of d) -> same_on K d e -> runs (eq now) d p (Done r d') -> exists e', runs (eq now) e p (Done r e') /\ same_on K d' e'.
Proof.
  intros Hnow. induction 1; intros h Hw d e r' d' Ha Hs R; inversion R; subst; try (exists e; split; [constructor|exact Hs]; fail); inversion Hw; subst.
  - (* Now *) edestruct H0 as (e' & R' & S'); eauto. exists e'. split; [econstructor; eauto|auto].
  - edestruct H0 as (e' & R' & S'); eauto. exists e'. split; [econstructor; eauto|auto].
  - (* EGet before *) assert (R1 : runs (eq now) d (k None) (Done r' d')).
    { destruct (exps d !! key) as [t|] eqn:Et; [|auto]. destruct (H2 t) as (k2 & E1 & E2); [eapply Ha; eauto|]. match goal with H : runs _ _ (k (Some t)) _ |- _ => rewrite E1 in H; inversion H; subst end.
      rewrite E2 in * by auto. auto. }
    edestruct IHsingle as (e' & R' & S'); eauto. exists e'. split; [|auto]. constructor. destruct (Hs key H) as [_ S2]. cbn in S2. rewrite <- S2.
    destruct (exps d !! key) as [t|] eqn:Et; [|auto]. destruct (H2 t) as (k2 & E1 & E2); [eapply Ha; eauto|]. rewrite E1. econstructor; [reflexivity|]. rewrite E2; auto.
  - edestruct (H1 (exps d !! key)) as (e' & R' & S'); eauto. exists e'. split; [|auto]. constructor. destruct (Hs key H) as [_ S2]. cbn in S2. rewrite <- S2. auto.
  - edestruct (H0 (dict d !! key)) as (e' & R' & S'); eauto. exists e'. split; [|auto]. constructor. destruct (Hs key) as [S1 _]; auto. cbn in S1. rewrite <- S1. auto.
  - edestruct H0 with (e := mkDb (<[key := v]> (dict e)) (exps e) (cnt e)) as (e' & R' & S'); [eauto| | |eassumption|]; [exact Ha|son Hs|]. exists e'. split; [|auto]. constructor. destruct (Hs key) as [S1 _]; auto. cbn in S1. rewrite <- S1. auto.
  - edestruct IHsingle with (e := mkDb (alter (fun _ => v) key (dict e)) (exps e) (cnt e)) as (e' & R' & S'); [eauto| | |eassumption|]; [exact Ha|son Hs|]. exists e'. split; [|auto]. constructor. auto.
  - edestruct H0 with (e := mkDb (delete key (dict e)) (exps e) (cnt e)) as (e' & R' & S'); [eauto| | |eassumption|]; [exact Ha|son Hs|]. exists e'. split; [|auto]. constructor. destruct (Hs key) as [S1 _]; auto. cbn in S1. rewrite <- S1. auto.
  - match goal with Hx : runs _ _ (k _) _ |- _ => rewrite H in Hx; inversion Hx; subst end.
    edestruct IHsingle with (e := mkDb (dict e) (exps e) (g (cnt e))) as (e' & R' & S'); [| | |eassumption|]; [|exact Ha|exact Hs|].
    + match goal with Hx : forall x, Wf.wf _ _ _ _ _ (k x) |- _ => specialize (Hx 0); rewrite H in Hx; inversion Hx; subst; eauto end.
    + exists e'. split; [|auto]. constructor. rewrite H. constructor. auto.
  - edestruct IHsingle with (e := mkDb (dict e) (exps e) n) as (e' & R' & S'); [| | |eassumption|]; [eauto|exact Ha|exact Hs|]. exists e'. split; [|auto]. constructor. auto.
  - edestruct IHsingle with (e := mkDb (dict e) (<[key := t]> (exps e)) (cnt e)) as (e' & R' & S'); [eauto| | |eassumption|]; [apply alive_set; auto|son Hs|]. exists e'. split; [|auto]. constructor. auto.
  - edestruct H0 with (e := mkDb (dict e) (delete key (exps e)) (cnt e)) as (e' & R' & S'); [eauto| | |eassumption|]; [apply alive_del; auto|son Hs|]. exists e'. split; [|auto]. constructor. destruct (Hs key) as [_ S2]; auto. cbn in S2. rewrite <- S2. auto.
  - edestruct IHsingle as (e' & R' & S'); eauto. exists e'. split; [constructor; auto|auto].
  - edestruct IHsingle as (e' & R' & S'); eauto. exists e'. split; [constructor; auto|auto].
  - eapply post_runs in H as (e' & R' & S'); eauto. exists e'. split; [constructor; auto|auto].
  - eapply post_runs in H as (e' & R' & S'); eauto. exists e'. split; [constructor; auto|auto].
Qed.
Hypothesis HT : forall t, T t -> t <= lim.
Lemma cmd_frame now d cmd r d' k : locked cmd -> step now d cmd (Done r d') -> k ∉ key_args cmd -> same_at (data_of d) (data_of d') k.
Proof.
  intros [H1 _] Hs Hk. eapply (wf_frame (eq now) (touched cmd) (cmd_is "setnx" cmd) Idle Idle); [|exact Hs|reflexivity|].
  - pose proof (exec_wf cmd) as W. unfold cmd_wf in W. rewrite H1 in W. exact W.
  - intros [H|H]; congruence.
Qed.
Lemma cmd_local (K : bytes -> Prop) now d e cmd r d' : T now -> one_step cmd -> far_deadlines T lim cmd -> (forall k, k ∈ key_args cmd -> K k) -> alive K lim (data_of d) -> same_on K d e ->
  step now d cmd (Done r d') -> exists e', step now e cmd (Done r e') /\ same_on K d' e'.
Proof.
  intros Hn H1 H2 H3 Ha Hs R. eapply (wf_local K (cmd_is "setnx" cmd) Idle Pre); eauto.
  - exact (lin_cmd_ok T lim HT K cmd H1 H2 H3).
  - pose proof (exec_wf cmd) as W. unfold cmd_wf in W. destruct H1 as [H1 _]. rewrite H1 in W. eapply wf_mono; [exact W| |auto..]. intros k [Hk|Hk]; auto. congruence.
Qed.
Definition all_alive (d : db) : Prop := alive (fun _ => True) lim (data_of d).
Lemma cmd_alive now d cmd r d' : T now -> one_step cmd -> far_deadlines T lim cmd -> all_alive d -> step now d cmd (Done r d') -> all_alive d'.
Proof.
  intros Hn H1 H2 Ha R. eapply (once_runs T (fun _ => True) lim true); [exact (once_ok T lim HT (fun _ => True) cmd H1 H2 (fun _ _ => Logic.I))|exact Ha| |reflexivity].
  eapply runs_mono; [|exact R]. intros t <-. auto.
Qed.
Lemma alive_live now d k : T now -> all_alive d -> live now (stored d k) = stored d k.
Proof.
  intros Hn Ha. unfold stored. destruct (dict d !! k) as [v|]; [|reflexivity]. destruct (exps d !! k) as [t|] eqn:E; [|reflexivity]. cbn.
  pose proof (Ha k t Logic.I E). pose proof (HT now Hn). destruct (Z.ltb_spec t now); [lia|reflexivity].
Qed.
Lemma alive_lingers now d k : T now -> all_alive d -> lingers now (stored d k) = false.
Proof.
  intros Hn Ha. unfold stored. destruct (dict d !! k) as [v|]; [|reflexivity]. destruct (exps d !! k) as [t|] eqn:E; [|reflexivity]. cbn.
  pose proof (Ha k t Logic.I E). pose proof (HT now Hn). destruct (Z.ltb_spec t now); [lia|reflexivity].
Qed.

(** ** Commands by pieces *)
Inductive bits : db -> list command -> list rdata -> db -> Prop :=
| bits_nil d : bits d [] [] d
| bits_snoc d ps rs d1 now p r d2 : bits d ps rs d1 -> T now -> step now d1 p (Done r d2) -> bits d (ps ++ [p]) (rs ++ [r]) d2.
Lemma bits_ok d ps rs d' : bits d ps rs d' -> Forall (fun p => one_step p /\ far_deadlines T lim p) ps -> Inv d -> all_alive d -> Inv d' /\ all_alive d'.
Proof.
  induction 1 as [|d ps rs d1 now p r d2 _ IH Hn Hs]; intros HF HI Ha; [auto|]. apply Forall_app in HF as [HF Hp]. inversion Hp as [|? ? [Hp1 Hp2] _]; subst.
  destruct (IH HF HI Ha) as [I1 A1]. split; [eapply step_inv; eauto|eapply cmd_alive; eauto].
Qed.
(** What the reference says of a command, no deadline having passed. *)
Lemma piece_says s (m : list val -> meaning) now d n args r d' : In (s, m) reference -> named n s -> T now -> Inv d -> all_alive d -> all_alive d' -> step now d (n :: args) (Done r d') ->
  exists S', m args now (fun k => live now (stored d k)) (fun k => lingers now (stored d k)) r S' /\ forall k, stored d' k = live now (S' k).
Proof.
  intros Hin Hna Hn HI Ha Ha' Hs. destruct (ref_exact now d (n :: args) (Done r d') HI Hs) as (S' & A & HK). exists S'. split.
  - destruct A as [(s' & m' & Hin' & Hna' & H)|[H _]]; [|destruct (H _ _ Hin Hna)]. destruct (one_meaning _ _ _ _ _ Hin Hin' Hna Hna') as [-> ->]. exact H.
  - intros k. destruct (HK k) as [H _]. rewrite alive_live in H by auto. exact H.
Qed.
Definition steady (d d' : db) : Prop := forall k, stored d' k = stored d k.
Definition pick (n : val) (k : val) : command := [n; k].
Lemma bits_last d ks x n rs d' : bits d (map (pick n) (ks ++ [x])) rs d' -> exists rs' d1 now r, rs = rs' ++ [r] /\ bits d (map (pick n) ks) rs' d1 /\ T now /\ step now d1 [n; x] (Done r d').
Proof.
  intros H. rewrite map_app in H. cbn in H. remember (map (pick n) ks ++ [pick n x]) as l eqn:El. destruct H as [d|d ps rs d1 now p r d2 H1 H2 H3]; [destruct (map (pick n) ks); discriminate El|].
  apply app_inj_tail in El as [-> ->]. exists rs, d1, now, r. auto.
Qed.
Section Split.
Context (n : val) (E1 : db).
Hypothesis HI : Inv E1.
Hypothesis HA : all_alive E1.
Definition pieces_ok (ks : list val) : Prop := Forall (fun p => one_step p /\ far_deadlines T lim p) (map (pick n) ks).
Lemma split_all (Q : list val -> list rdata -> db -> Prop) ks rs E : Q [] [] E1 ->
  (forall ks rs d1 now x r d2, Q ks rs d1 -> Inv d1 -> all_alive d1 -> all_alive d2 -> T now -> step now d1 [n; x] (Done r d2) -> Q (ks ++ [x]) (rs ++ [r]) d2) ->
  pieces_ok ks -> bits E1 (map (pick n) ks) rs E -> Q ks rs E.
Proof.
  intros H0 HS. revert rs E. induction ks as [|x ks IH] using rev_ind; intros rs E HF Hb.
  - cbn in Hb. remember [] as l eqn:El in Hb. destruct Hb as [d|d ps]; [auto|]. destruct ps; discriminate El.
  - pose proof HF as HF'. unfold pieces_ok in HF'. rewrite map_app in HF'. apply Forall_app in HF' as [HF1 HF2]. inversion HF2 as [|? ? [K1 K2] _]; subst.
    destruct (bits_last _ _ _ _ _ _ Hb) as (rs' & d1 & now & r & -> & Hb1 & Hn & Hs). destruct (bits_ok _ _ _ _ Hb1 HF1 HI HA) as [I1 A1].
    eapply HS; eauto. eapply cmd_alive; eauto.
Qed.
Definition there (e : entry) : Z := match e with Some _ => 1 | None => 0 end.
Lemma filter_one (S : keyspace) k : Z.of_nat (length (filter (fun k => S k <> None) [k])) = there (S k).
Proof. rewrite filter_cons. cbn. destruct (decide (S k <> None)) as [H|H]; destruct (S k); cbn; auto; try congruence. destruct H. discriminate. Qed.
Lemma exists_one now d1 x r d2 : named n "exists" -> T now -> Inv d1 -> all_alive d1 -> all_alive d2 -> step now d1 [n; x] (Done r d2) -> r = RInt (there (stored d1 (str x))) /\ steady d1 d2.
Proof.
  intros Hna Hn I1 A1 A2 Hs. destruct (piece_says "exists" (fun args => all_of args (fun ks => plain (exists_spec (map str ks)))) now d1 n [x] r d2) as (S' & [-> HS] & HK); auto.
  { unfold reference. cbn [In]. tauto. }
  cbn [map]. rewrite filter_one, alive_live by auto. split; [auto|]. intros k. rewrite HK, HS, !alive_live by auto. auto.
Qed.
Lemma mget_one' now d1 x r d2 : named n "mget" -> T now -> Inv d1 -> all_alive d1 -> all_alive d2 -> step now d1 [n; x] (Done r d2) -> r = RArr (Some [mget_one (stored d1) x]) /\ steady d1 d2.
Proof.
  intros Hna Hn I1 A1 A2 Hs. destruct (piece_says "mget" (fun args => all_of args ref_mget) now d1 n [x] r d2) as (S' & [-> HS] & HK); auto.
  { unfold reference. cbn [In]. tauto. }
  split; [|intros k; rewrite HK, HS, !alive_live by auto; auto]. cbn [kept_keys]. rewrite alive_lingers by auto. cbn [map]. unfold mget_one. rewrite alive_live by auto. auto.
Qed.
Lemma set_one (k : bytes) : list_to_set [k] = ({[k]} : gset bytes).
Proof. apply leibniz_equiv. apply list_to_set_singleton. Qed.
Lemma del_one now d1 x r d2 : named n "del" -> T now -> Inv d1 -> all_alive d1 -> all_alive d2 -> step now d1 [n; x] (Done r d2) ->
  r = RInt (there (stored d1 (str x))) /\ stored d2 (str x) = None /\ forall k, k <> str x -> stored d2 k = stored d1 k.
Proof.
  intros Hna Hn I1 A1 A2 Hs. destruct (piece_says "del" (fun args => all_of args (fun ks => plain (del_spec (map str ks)))) now d1 n [x] r d2) as (S' & (-> & HS1 & HS2) & HK); auto.
  { unfold reference. cbn [In]. tauto. }
  cbn [map] in *. split; [|split].
  - f_equal. rewrite set_one. rewrite <- (alive_live now d1 (str x)) by auto. destruct (live now (stored d1 (str x))) as [e|] eqn:E.
    + rewrite (filter_singleton_L _ (str x)) by (rewrite E; discriminate). rewrite size_singleton. reflexivity.
    + rewrite (filter_singleton_not_L _ (str x)) by (rewrite E; auto). rewrite size_empty. reflexivity.
  - rewrite HK, HS1 by left. reflexivity.
  - intros k Hk. rewrite HK, HS2 by (rewrite elem_of_list_singleton; auto). rewrite !alive_live by auto. auto.
Qed.
Lemma sum_snoc ns z : foldr Z.add 0 (ns ++ [z]) = foldr Z.add 0 ns + z.
Proof. induction ns as [|y ns IH]; cbn; [lia|]. rewrite IH. lia. Qed.
Lemma split_exists ks rs E : named n "exists" -> pieces_ok ks -> bits E1 (map (pick n) ks) rs E ->
  exists ns, rs = map RInt ns /\ foldr Z.add 0 ns = Z.of_nat (length (filter (fun k => stored E1 k <> None) (map str ks))) /\ steady E1 E.
Proof.
  intros Hn. apply (split_all (fun ks rs E => exists ns, rs = map RInt ns /\ foldr Z.add 0 ns = Z.of_nat (length (filter (fun k => stored E1 k <> None) (map str ks))) /\ steady E1 E)).
  - exists []. split; [auto|]. split; [auto|]. intros k. auto.
  - intros ks' rs' d1 now x r d2 (ns & -> & Hs & Hst) I1 A1 A2 Hnow Hx. destruct (exists_one _ _ _ _ _ Hn Hnow I1 A1 A2 Hx) as [-> Hst'].
    exists (ns ++ [there (stored d1 (str x))]). rewrite !map_app. split; [auto|]. split; [|intros k; rewrite Hst', Hst; auto].
    rewrite sum_snoc, Hs, stdpp.list.filter_app, app_length, Nat2Z.inj_add, Hst. f_equal. cbn [map]. rewrite filter_one. auto.
Qed.
Lemma split_mget ks rs E : named n "mget" -> pieces_ok ks -> bits E1 (map (pick n) ks) rs E ->
  rs = map (fun l => RArr (Some l)) (map (fun k => [mget_one (stored E1) k]) ks) /\ steady E1 E.
Proof.
  intros Hn. apply (split_all (fun ks rs E => rs = map (fun l => RArr (Some l)) (map (fun k => [mget_one (stored E1) k]) ks) /\ steady E1 E)).
  - split; [auto|]. intros k. auto.
  - intros ks' rs' d1 now x r d2 (-> & Hst) I1 A1 A2 Hnow Hx. destruct (mget_one' _ _ _ _ _ Hn Hnow I1 A1 A2 Hx) as [-> Hst'].
    rewrite !map_app. split; [|intros k; rewrite Hst', Hst; auto]. cbn. unfold mget_one. rewrite Hst. auto.
Qed.
Lemma split_del ks rs E : named n "del" -> pieces_ok ks -> bits E1 (map (pick n) ks) rs E ->
  exists ns, rs = map RInt ns /\ foldr Z.add 0 ns = Z.of_nat (size (filter (fun k => stored E1 k <> None) (list_to_set (map str ks) : gset bytes))) /\
    (forall k, k ∈ map str ks -> stored E k = None) /\ forall k, k ∉ map str ks -> stored E k = stored E1 k.
Proof.
  intros Hn. apply (split_all (fun ks rs E => exists ns, rs = map RInt ns /\ foldr Z.add 0 ns = Z.of_nat (size (filter (fun k => stored E1 k <> None) (list_to_set (map str ks) : gset bytes))) /\
    (forall k, k ∈ map str ks -> stored E k = None) /\ forall k, k ∉ map str ks -> stored E k = stored E1 k)).
  - exists []. split; [auto|]. split; [|split; [intros k Hk; apply elem_of_nil in Hk; destruct Hk|intros k _; reflexivity]]. cbn [map list_to_set foldr]. rewrite filter_empty_L, size_empty. reflexivity. apply gset_leibniz.
  - intros ks' rs' d1 now x r d2 (ns & -> & Hs & G1 & G2) I1 A1 A2 Hnow Hx. destruct (del_one _ _ _ _ _ Hn Hnow I1 A1 A2 Hx) as (-> & F1 & F2).
    exists (ns ++ [there (stored d1 (str x))]). rewrite !map_app. split; [auto|]. split; [|split].
    + rewrite sum_snoc, Hs. cbn [map]. rewrite list_to_set_app_L, set_one, (filter_union_L (C := gset bytes)); [|apply gset_leibniz].
      destruct (decide (str x ∈ map str ks')) as [Hin|Hin].
      * rewrite (G1 _ Hin). cbn [there]. rewrite Z.add_0_r. f_equal. f_equal. apply leibniz_equiv. intros y. rewrite elem_of_union, !elem_of_filter, elem_of_singleton, elem_of_list_to_set. split; [tauto|]. intros [?|[? ->]]; auto.
      * rewrite (G2 _ Hin). destruct (stored E1 (str x)) as [e|] eqn:E2; cbn [there].
        -- rewrite (filter_singleton_L _ (str x)) by (rewrite E2; discriminate). rewrite size_union; [rewrite size_singleton; lia|]. intros y Hy1 Hy2. apply elem_of_filter in Hy1 as [_ Hy1]. apply elem_of_singleton in Hy2 as ->. apply elem_of_list_to_set in Hy1. contradiction.
        -- rewrite (filter_singleton_not_L _ (str x)) by (rewrite E2; auto). rewrite (right_id_L ∅ (∪)). lia.
    + intros k Hk. destruct (decide (k = str x)) as [->|Hk']; [auto|]. rewrite F2 by auto. apply G1. apply elem_of_app in Hk as [?|Hk]; [auto|]. apply elem_of_list_singleton in Hk. contradiction.
    + intros k Hk. rewrite elem_of_app in Hk. cbn in Hk. rewrite F2; [apply G2; tauto|]. intros ->. apply Hk. right. left.
Qed.
End Split.
(** The pieces make the command. *)
Lemma bits_len d ps rs d' : bits d ps rs d' -> length ps = length rs.
Proof. induction 1; [auto|]. rewrite !app_length. cbn. lia. Qed.
Lemma kept_all gone ks : (forall k, gone k = false) -> kept_keys gone ks = ks.
Proof. intros H. induction ks as [|k ks IH]; cbn; [auto|]. rewrite H, IH. auto. Qed.
Lemma ref_here s (m : list val -> meaning) now d n args r d' S' : In (s, m) reference -> named n s -> T now -> all_alive d -> all_alive d' ->
  m args now (fun k => live now (stored d k)) (fun k => lingers now (stored d k)) r S' -> (forall k, S' k = stored d' k) -> ref_step now (stored d) (n :: args) r (stored d').
Proof.
  intros Hin Hna Hn Ha Ha' Hm HS. exists S'. split; [left; eauto|]. intros k. rewrite HS. split; [auto|]. intros Hl. rewrite alive_lingers in Hl by auto. discriminate.
Qed.
Lemma bits_join d cmd rs d' r : Inv d -> all_alive d -> locked cmd -> far_deadlines T lim cmd -> bits d (pieces cmd) rs d' -> joins rs r -> (exists t, T t) ->
  exists now, T now /\ ref_step now (stored d) cmd r (stored d').
Proof.
  intros HI HA HL HF Hb HJ [t0 Ht0].
  assert (HP : Forall (fun p => one_step p /\ far_deadlines T lim p) (pieces cmd)).
  { apply Forall_forall. intros p Hp. apply elem_of_list_In in Hp. split; [eapply piece_one_step; eauto|eapply piece_far; eauto]. }
  destruct (bits_ok _ _ _ _ Hb HP HI HA) as [HI' HA'].
  assert (H1 : pieces cmd = [cmd] -> exists now, T now /\ ref_step now (stored d) cmd r (stored d')).
  { intros E. rewrite E in Hb. remember [cmd] as l eqn:El. destruct Hb as [d|d ps rs d1 now p r0 d2 Hb1 Hn Hs]; [discriminate|]. destruct ps as [|p0 ps]; [|destruct ps; discriminate]. injection El as ->.
    assert (rs = [] /\ d1 = d) as [-> ->]. { remember [] as l eqn:El in Hb1. destruct Hb1 as [|? ps']; [auto|destruct ps'; discriminate]. }
    cbn in HJ. assert (r = r0) as -> by (eapply joins_fun; [|exact HJ|constructor]; discriminate). exists now. split; [auto|]. exact (ref_exact now d cmd (Done r0 d2) HI Hs). }
  destruct cmd as [|n [|k ks]]; [auto|auto|]. unfold pieces in *. destruct (cmd_is "del" (n :: k :: ks) || cmd_is "exists" (n :: k :: ks) || cmd_is "mget" (n :: k :: ks)) eqn:E; [|auto]. clear H1.
  change (map (fun k => [n; k]) (k :: ks)) with (map (pick n) (k :: ks)) in *. exists t0. split; [auto|]. set (l := k :: ks) in *.
  apply orb_true_iff in E as [E|E]; [apply orb_true_iff in E as [E|E]|]; cbn in E; apply bool_decide_eq_true in E.
  - destruct (split_del n d HI HA l rs d' E HP Hb) as (ns & -> & Hs & G1 & G2). assert (r = RInt (foldr Z.add 0 ns)) as ->.
    { eapply joins_fun; [|exact HJ|constructor]. apply bits_len in Hb. destruct ns; discriminate. }
    eapply (ref_here "del" _ t0 d n l _ d' (stored d')); eauto; [unfold reference; cbn [In]; tauto|]. rewrite Hs. cbn [all_of l]. fold l. unfold plain, del_spec. split; [|split; [auto|]].
    + f_equal. f_equal. f_equal. apply leibniz_equiv. intros y. rewrite !elem_of_filter. rewrite alive_live by auto. tauto.
    + intros y Hy. rewrite alive_live by auto. auto.
  - destruct (split_exists n d HI HA l rs d' E HP Hb) as (ns & -> & Hs & G). assert (r = RInt (foldr Z.add 0 ns)) as ->.
    { eapply joins_fun; [|exact HJ|constructor]. apply bits_len in Hb. destruct ns; discriminate. }
    eapply (ref_here "exists" _ t0 d n l _ d' (stored d')); eauto; [unfold reference; cbn [In]; tauto|]. rewrite Hs. cbn [all_of l]. fold l. unfold plain, exists_spec. split.
    + f_equal. f_equal. f_equal. apply list_filter_iff. intros y. rewrite alive_live by auto. tauto.
    + intros y. rewrite G, alive_live by auto. auto.
  - destruct (split_mget n d HI HA l rs d' E HP Hb) as (-> & G). assert (r = RArr (Some (concat (map (fun k => [mget_one (stored d) k]) l)))) as ->.
    { eapply joins_fun; [|exact HJ|constructor]. discriminate. }
    eapply (ref_here "mget" _ t0 d n l _ d' (stored d')); eauto; [unfold reference; cbn [In]; tauto|]. cbn [all_of l]. fold l. unfold ref_mget, mget_spec. split.
    + rewrite kept_all by (intros; apply alive_lingers; auto). f_equal. f_equal. clear -HA HT Ht0. induction l as [|x l IH]; cbn [map concat app]; [auto|]. rewrite IH. f_equal. unfold mget_one. rewrite alive_live by auto. auto.
    + intros y. rewrite G, alive_live by auto. auto.
Qed.

(** ** One client by itself *)
Inductive solo : list (Z * command * rdata) -> db -> Prop :=
| solo_nil : solo [] empty_db
| solo_snoc h d now cmd r d' : solo h d -> T now -> ref_step now (stored d) cmd r (stored d') -> Inv d' -> all_alive d' -> solo (h ++ [(now, cmd, r)]) d'.
Lemma solo_ok h d : solo h d -> Inv d /\ all_alive d.
Proof. destruct 1; [|auto]. split; [apply inv_empty|]. intros k t _ E. cbn in E. rewrite lookup_empty in E. discriminate. Qed.
Lemma ref_run_snoc M h M1 now cmd r M2 : ref_run M h M1 -> ref_step now M1 cmd r M2 -> ref_run M (h ++ [(now, cmd, r)]) M2.
Proof. induction 1; intros Hs; cbn; econstructor; eauto; constructor. Qed.
Lemma solo_run h d : solo h d -> ref_run (stored empty_db) h (stored d) /\ Forall (fun e => T e.1.1) h.
Proof.
  induction 1 as [|h d now cmd r d' _ [IH1 IH2] Hn Hs _ _]; [split; constructor|]. split; [eapply ref_run_snoc; eauto|]. apply Forall_app. split; [auto|]. constructor; auto.
Qed.

Context (css : list (list command)) (i : nat) (cs : list command).
Hypothesis HT0 : exists t, T t.
Hypothesis Hi : css !! i = Some cs.
Hypothesis Hap : keeps_apart i css.
Hypothesis Hlo : each locked css.
Hypothesis Hfa : each (far_deadlines T lim) css.
Hypothesis Hse : each (fun cmd => ~ called "select" cmd) css.
Definition given_out (a : account) : list command := map fst (paid a) ++ match current a with Some t => [asked_for t] | None => [] end.
Definition accs_fit (cl : list account) : Prop := forall j a, cl !! j = Some a -> exists ds rest, css !! j = Some ds /\ ds = given_out a ++ rest.
Record SI (z : mcount) (h : list (Z * command * rdata)) : Prop := mkSI {
  si_cur : cur z.1 = 0%nat;
  si_place : forall j a t, z.2 !! j = Some a -> current a = Some t -> place t = 0%nat /\ exists l, pieces (asked_for t) = l ++ parts_left t;
  si_db : exists D E, mdbs z.1 !! 0%nat = Some D /\ same_on (keyed cs) D E /\ exists a, z.2 !! i = Some a /\ deeds h = paid a /\
    match current a with
    | None => solo h E
    | Some t => exists E1 l, solo h E1 /\ pieces (asked_for t) = l ++ parts_left t /\ bits E1 l (parts_done t) E
    end }.
Lemma accs_back z z' : jstep T z z' -> accs_fit z'.2 -> accs_fit z.2.
Proof.
  intros H HF. destruct H as [m cl j l cmd Hj Hs|m cl j l cmd Hj Hs|m cl j l cmd pl rs p rest now D r D' Hj Hn HD Hst|m cl j l cmd pl rs r Hj HJ]; cbn in *; intros j' a Ha.
  all: destruct (decide (j' = j)) as [->|Hne]; [|apply (HF j' a); rewrite list_lookup_insert_ne by auto; exact Ha].
  all: rewrite Hj in Ha; injection Ha as <-.
  all: match goal with H : accs_fit (<[?j := ?a']> ?cl) |- _ => destruct (H j a' (list_lookup_insert _ _ _ (lookup_lt_Some _ _ _ Hj))) as (ds & rest' & E1 & E2) end.
  all: unfold given_out in *; cbn in *; rewrite ?map_app, ?app_nil_r, <- ?app_assoc in E2; cbn in E2.
  all: first [exists ds, rest'; split; [exact E1|]; rewrite ?app_nil_r, <- ?app_assoc; cbn; exact E2|exists ds, (cmd :: rest'); split; [exact E1|]; rewrite ?app_nil_r, <- ?app_assoc; cbn; exact E2].
Qed.
Lemma fit_cmd cl j a cmd : accs_fit cl -> cl !! j = Some a -> cmd ∈ given_out a -> exists ds, css !! j = Some ds /\ cmd ∈ ds.
Proof. intros HF Ha Hc. destruct (HF j a Ha) as (ds & rest & E & ->). exists (given_out a ++ rest). split; [auto|]. apply elem_of_app. auto. Qed.
Lemma si_step z z' h : jstep T z z' -> accs_fit z'.2 -> SI z h -> exists h', SI z' (h ++ h').
Proof.
  intros H HF [S1 S2 (D0 & E & HD0 & HS & a & Ha & Hd & Hc)].
  assert (HB : accs_fit z.2) by (eapply accs_back; eauto).
  destruct H as [m cl j l cmd Hj Hs|m cl j l cmd Hj Hs|m cl j l cmd pl rs p rest now D r D' Hj Hn HD Hst|m cl j l cmd pl rs r Hj HJ]; cbn in *.
  - (* SELECT *) exfalso. destruct (fit_cmd _ j _ cmd HF (list_lookup_insert _ _ _ (lookup_lt_Some _ _ _ Hj))) as (ds & E1 & E2).
    { unfold given_out. cbn. rewrite map_app. apply elem_of_app. left. apply elem_of_app. right. left. }
    eapply (Hse ds cmd); [eapply elem_of_list_lookup_2; eauto|auto|]. apply called_select. exact Hs.
  - (* begins *) exists []. rewrite app_nil_r. constructor; cbn; [auto| |].
    + intros j' a' t Hj' Ht. apply lookup_upd in Hj' as [[<- ->]|[_ Hj']]; [|eauto]. cbn in Ht. injection Ht as <-. cbn. split; [auto|]. exists []. auto.
    + exists D0, E. split; [auto|]. split; [auto|]. destruct (decide (j = i)) as [->|Hne].
      * rewrite Ha in Hj. injection Hj as ->. cbn in *. eexists. split; [apply list_lookup_insert; eapply lookup_lt_Some; eauto|]. cbn. split; [auto|]. exists E, []. split; [auto|]. split; [auto|]. constructor.
      * exists a. rewrite list_lookup_insert_ne by auto. auto.
  - (* a piece *) destruct (S2 _ _ _ Hj eq_refl) as [Hpl (l0 & Hl0)]. cbn in Hpl, Hl0. subst pl. rewrite HD0 in HD. injection HD as ->.
    destruct (fit_cmd _ j _ cmd HB Hj) as (ds & Hds & Hcmd). { unfold given_out. cbn. apply elem_of_app. right. left. }
    assert (Hp : p ∈ pieces cmd) by (rewrite Hl0; apply elem_of_app; right; left).
    assert (Hin : ds ∈ css) by (eapply elem_of_list_lookup_2; eauto).
    exists []. rewrite app_nil_r. constructor; cbn; [auto| |].
    + intros j' a' t Hj' Ht. apply lookup_upd in Hj' as [[<- ->]|[_ Hj']]; [|eauto]. cbn in Ht. injection Ht as <-. cbn. split; [auto|]. exists (l0 ++ [p]). rewrite <- app_assoc. auto.
    + exists D'. rewrite list_lookup_insert by (eapply lookup_lt_Some; eauto). destruct (decide (j = i)) as [->|Hne].
      * rewrite Ha in Hj. injection Hj as ->. cbn in *. destruct Hc as (E1 & l1 & Hso & Hl1 & Hb). rewrite Hi in Hds. injection Hds as <-.
        destruct (solo_ok _ _ Hso) as [I1 A1].
        assert (HP : Forall (fun p => one_step p /\ far_deadlines T lim p) (pieces cmd)).
        { apply Forall_forall. intros q Hq. apply elem_of_list_In in Hq. split; [eapply piece_one_step; eauto|eapply piece_far; eauto]. }
        rewrite Hl1 in HP. apply Forall_app in HP as [HP1 HP2]. inversion HP2 as [|? ? [Q1 Q2] _]; subst. destruct (bits_ok _ _ _ _ Hb HP1 I1 A1) as [I2 A2].
        destruct (cmd_local (keyed cs) now D E p r D' Hn Q1 Q2) as (E' & Hst' & HS'); auto.
        { intros k Hk. exists cmd. split; [auto|]. eapply piece_keys; eauto. }
        { intros k t Hk Et. destruct (HS k Hk) as [_ H2]. rewrite H2 in Et. eapply A2; eauto. }
        exists E'. split; [auto|]. split; [auto|]. eexists. split; [apply list_lookup_insert; eapply lookup_lt_Some; eauto|]. cbn. split; [auto|]. exists E1, (l1 ++ [p]). split; [auto|].
        split; [rewrite <- app_assoc; auto|]. econstructor; eauto.
      * exists E. split; [auto|]. split.
        -- intros k Hk. eapply same_at_trans; [|apply HS; exact Hk]. apply same_at_sym. eapply cmd_frame; [|exact Hst|].
           ++ destruct (piece_one_step cmd p (Hlo _ _ Hin Hcmd) Hp) as (Q1 & Q2 & _). split; auto.
           ++ intros Hk'. apply Hne. eapply (Hap j cs ds k Hi Hds Hk). exists cmd. split; [auto|]. eapply piece_keys; eauto.
        -- exists a. rewrite list_lookup_insert_ne by auto. auto.
  - (* the reply *) destruct (S2 _ _ _ Hj eq_refl) as [Hpl _]. cbn in Hpl. subst pl.
    assert (HP : forall j' a' t, <[j:=mkAcc (l ++ [(cmd, r)]) None]> cl !! j' = Some a' -> current a' = Some t -> place t = 0%nat /\ exists l, pieces (asked_for t) = l ++ parts_left t).
    { intros j' a' t Hj' Ht. apply lookup_upd in Hj' as [[<- ->]|[_ Hj']]; [discriminate|eauto]. }
    destruct (decide (j = i)) as [->|Hne].
    + rewrite Ha in Hj. injection Hj as ->. cbn in *. destruct Hc as (E1 & l1 & Hso & Hl1 & Hb). rewrite app_nil_r in Hl1. subst l1.
      destruct (fit_cmd _ i _ cmd HB Ha) as (ds & Hds & Hcmd). { unfold given_out. cbn. apply elem_of_app. right. left. }
      assert (Hin : ds ∈ css) by (eapply elem_of_list_lookup_2; eauto). destruct (solo_ok _ _ Hso) as [I1 A1].
      destruct (bits_join E1 cmd rs E r I1 A1) as (now & Hn & Hr); auto; [eapply Hlo; eauto|eapply Hfa; eauto|].
      assert (HP' : Forall (fun p => one_step p /\ far_deadlines T lim p) (pieces cmd)).
      { apply Forall_forall. intros q Hq. apply elem_of_list_In in Hq. split; [eapply piece_one_step; eauto|eapply piece_far; eauto]. }
      destruct (bits_ok _ _ _ _ Hb HP' I1 A1) as [I2 A2]. exists [(now, cmd, r)]. constructor; cbn; [auto|auto|].
      exists D0, E. split; [auto|]. split; [auto|]. eexists. split; [apply list_lookup_insert; eapply lookup_lt_Some; eauto|]. cbn. unfold deeds. rewrite map_app. cbn. split; [f_equal; exact Hd|]. econstructor; eauto.
    + exists []. rewrite app_nil_r. constructor; cbn; [auto|auto|]. exists D0, E. split; [auto|]. split; [auto|]. exists a. rewrite list_lookup_insert_ne by auto. auto.
Qed.
Lemma accs_backs z z' : rtc (jstep T) z z' -> accs_fit z'.2 -> accs_fit z.2.
Proof. induction 1 as [|z z1 z' Hs _ IH]; [auto|]. intros HF. eapply accs_back; eauto. Qed.
Lemma si_steps z z' : rtc (jstep T) z z' -> forall h, accs_fit z'.2 -> SI z h -> exists h', SI z' (h ++ h').
Proof.
  induction 1 as [z|z z1 z' Hs Hr IH]; intros h HF HS; [exists []; rewrite app_nil_r; auto|]. destruct (si_step z z1 h Hs) as (h1 & S1); [eapply accs_backs; eauto|auto|].
  destruct (IH _ HF S1) as (h2 & S2). exists (h1 ++ h2). rewrite app_assoc. auto.
Qed.
End Local.

Section Final.
Context {P : Setup}.
Lemma si_start T lim dbs css i cs : (1 <= dbs)%nat -> css !! i = Some cs -> SI T lim i cs (mkMgr 0 (replicate dbs empty_db), replicate (length css) (mkAcc [] None)) [].
Proof.
  intros Hdb Hi. constructor; cbn; [auto| |].
  - intros j a t Hj Ht. apply lookup_replicate in Hj as [-> _]. discriminate.
  - exists empty_db, empty_db. split; [apply lookup_replicate; split; [auto|lia]|]. split; [intros k _; apply same_at_refl|]. exists (mkAcc [] None).
    split; [apply lookup_replicate; split; [auto|eapply lookup_lt_Some; eauto]|]. split; [auto|]. constructor.
Qed.
Lemma bare_empty : bare (stored empty_db).
Proof. intros k. unfold stored. cbn. rewrite lookup_empty. auto. Qed.
Theorem apart_solo (T : Z -> Prop) lim dbs css (f : nat -> world) N i cs : (1 <= dbs)%nat -> (exists t, T t) -> (forall t, T t -> t <= lim) ->
  f 0%nat = boot 0 (replicate dbs empty_db) (length css) -> (forall n, (n < N)%nat -> happens T (f n) (f (S n))) ->
  (forall i p, peers (f N) !! i = Some p -> exists cs, css !! i = Some cs /\ asks (concat (given (lnk p))) cs) ->
  each locked css -> each (far_deadlines T lim) css -> each (fun cmd => ~ called "select" cmd) css -> css !! i = Some cs -> keeps_apart i css ->
  exists h : nat -> list (Z * command * rdata), h 0%nat = [] /\ (forall n, (n < N)%nat -> exists h', h (S n) = h n ++ h') /\
    forall n p, (n <= N)%nat -> peers (f n) !! i = Some p -> exists E, solo T lim (h n) E /\
      log (lnk p) = deeds (h n) /\ replied (deeds (h n)) (written p) /\ (exists rest, cs = map fst (deeds (h n)) ++ rest) /\
      (runs_on p = None -> forall c key, wcores (f n) !! 0%nat = Some c -> keyed cs key -> wr (lk c (lockpos key)) = false -> stored (cdb c) key = stored E key).
Proof.
  intros Hdb Ht HT H0 Hf Ha H1 H2 H3 Hi Hap. destruct (parts_machine T lim dbs css f N Hdb Ht HT H0 Hf Ha H1 H2) as (g & g0 & gS & gA).
  assert (FIT : forall n, (n <= N)%nat -> accs_fit css (g n).2).
  { intros n Hn j a Hj. destruct (gA n Hn) as (_ & Hp & Hag). destruct (Hp j a Hj) as [p Hp']. destruct (Hag j p Hp') as (a' & ds & rest & Ha' & _ & Hds & E).
    rewrite Hj in Ha'. injection Ha' as <-. exists ds, rest. split; [auto|]. unfold given_out. rewrite <- app_assoc. exact E. }
  assert (HH : forall M, (M <= N)%nat -> exists h : nat -> list (Z * command * rdata), h 0%nat = [] /\ (forall n, (n < M)%nat -> exists h', h (S n) = h n ++ h') /\ forall n, (n <= M)%nat -> SI T lim i cs (g n) (h n)).
  { induction M as [|M IH]; intros HM.
    - exists (fun _ => []). split; [auto|]. split; [intros; lia|]. intros n Hn. assert (n = 0%nat) as -> by lia. rewrite g0. apply si_start; auto.
    - destruct (IH ltac:(lia)) as (h & h0 & hS & hI).
      destruct (si_steps T lim HT css i cs Ht Hi Hap H1 H2 H3 _ _ (gS M ltac:(lia)) (h M) (FIT (S M) HM) (hI M ltac:(lia))) as (h' & SI').
      exists (fun n => if (n <=? M)%nat then h n else h M ++ h'). split; [auto|]. split.
      + intros n Hn. destruct (Nat.leb_spec (S n) M), (Nat.leb_spec n M); try lia; [apply hS; lia|]. assert (n = M) as -> by lia. eauto.
      + intros n Hn. destruct (Nat.leb_spec n M); [apply hI; lia|]. assert (n = S M) as -> by lia. exact SI'. }
  destruct (HH N ltac:(lia)) as (h & h0 & hS & hI). exists h. split; [auto|]. split; [auto|]. intros n p Hn Hp.
  destruct (gA n Hn) as (L & _ & Hag). destruct (Hag i p Hp) as (a & cs' & rest & Hacc & (E1 & E2 & E3) & Hcs & E4). rewrite Hi in Hcs. injection Hcs as <-.
  destruct (hI n Hn) as [S1 S2 (D & E & HD & HS & a' & Ha' & Hd & Hc)]. rewrite Hacc in Ha'. injection Ha' as <-.
  assert (HE : exists E', solo T lim (h n) E' /\ (runs_on p = None -> E' = E)).
  { destruct (runs_on p) as [j|]; [|rewrite E3 in Hc; eauto]. destruct E3 as (cmd & rs & ps & _ & E3). rewrite E3 in Hc. destruct Hc as (E' & l & Hso & _). exists E'. split; [auto|discriminate]. }
  destruct HE as (E' & Hso & HE). exists E'. split; [auto|]. rewrite Hd, E1. split; [auto|]. split; [rewrite E1 in E2; exact E2|]. split.
  - rewrite E1 in E4. eauto.
  - intros Hr c key Hc' Hk Hw. rewrite (HE Hr). rewrite <- (ji_holds _ _ _ _ _ 0%nat c D key L Hc' HD Hw). destruct (HS key Hk) as [Q1 Q2]. cbn in Q1, Q2. unfold stored. rewrite Q1, Q2. auto.
Qed.
Theorem apart_whole (T : Z -> Prop) lim dbs css (f : nat -> world) N i cs : (1 <= dbs)%nat -> (exists t, T t) -> (forall t, T t -> t <= lim) ->
  f 0%nat = boot 0 (replicate dbs empty_db) (length css) -> (forall n, (n < N)%nat -> happens T (f n) (f (S n))) ->
  (forall i p, peers (f N) !! i = Some p -> exists cs, css !! i = Some cs /\ asks (concat (given (lnk p))) cs) ->
  each locked css -> each (far_deadlines T lim) css -> each (fun cmd => ~ called "select" cmd) css -> css !! i = Some cs -> keeps_apart i css ->
  exists (h : nat -> list (Z * command * rdata)) M0, bare M0 /\ h 0%nat = [] /\ (forall n, (n < N)%nat -> exists h', h (S n) = h n ++ h') /\
    forall n p, (n <= N)%nat -> peers (f n) !! i = Some p -> exists M, ref_run M0 (h n) M /\ Forall (fun e => T e.1.1) (h n) /\
      log (lnk p) = deeds (h n) /\ replied (deeds (h n)) (written p) /\ (exists rest, cs = map fst (deeds (h n)) ++ rest) /\
      (runs_on p = None -> forall c key, wcores (f n) !! 0%nat = Some c -> keyed cs key -> wr (lk c (lockpos key)) = false -> stored (cdb c) key = M key).
Proof.
  intros Hdb Ht HT H0 Hf Ha H1 H2 H3 Hi Hap. destruct (apart_solo T lim dbs css f N i cs Hdb Ht HT H0 Hf Ha H1 H2 H3 Hi Hap) as (h & h0 & hS & hI).
  exists h, (stored empty_db). split; [apply bare_empty|]. split; [auto|]. split; [auto|]. intros n p Hn Hp. destruct (hI n p Hn Hp) as (E & Hso & Hrest). destruct (solo_run _ _ _ _ Hso) as [R1 R2].
  exists (stored E). auto.
Qed.
Lemma apart_rests0 (T : Z -> Prop) lim dbs css x i cs p : (1 <= dbs)%nat -> (exists t, T t) -> (forall t, T t -> t <= lim) ->
  rtc (happens T) (boot 0 (replicate dbs empty_db) (length css)) x -> now_is x = Running -> (forall y, ~ wadvance T x y) -> ~ spins x ->
  (forall i p, peers x !! i = Some p -> exists cs, css !! i = Some cs /\ asks (concat (given (lnk p))) cs) ->
  each locked css -> each (far_deadlines T lim) css -> each (fun cmd => ~ called "select" cmd) css -> css !! i = Some cs -> keeps_apart i css -> peers x !! i = Some p -> stg p <> Away ->
  exists h E, solo T lim h E /\ map fst (deeds h) = cs /\ replied (deeds h) (written p).
Proof.
  intros Hdb Ht HT R Hrun Hn Hsp Ha H1 H2 H3 Hi Hap Hp Hst. destruct (rtc_path _ _ _ R) as (N & f & H0 & HN & Hf). rewrite <- HN in Ha.
  destruct (apart_solo T lim dbs css f N i cs Hdb Ht HT H0 Hf Ha H1 H2 H3 Hi Hap) as (h & h0 & hS & hI). rewrite HN in *.
  destruct (hI N p ltac:(lia) ltac:(rewrite HN; exact Hp)) as (E & Hso & E1 & E2 & _). exists (h N), E. split; [auto|]. split; [|auto]. destruct Ht as [now Hnow].
  destruct (world_any_rests T now 0 (replicate dbs empty_db) _ x Hnow ltac:(rewrite replicate_length; lia) R Hrun Hn) as [|W]; [contradiction|].
  destruct (Ha i p Hp) as (cs2 & Hcs2 & ks & t & Hr & ->). rewrite Hi in Hcs2. injection Hcs2 as ->. destruct (W i p Hp Hst) as [_ W2]. destruct (W2 ks t Hr) as (F1 & F2 & F3). rewrite <- E1. exact F1.
Qed.
End Final.
