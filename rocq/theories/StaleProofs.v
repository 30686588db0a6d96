(** Handlers that see an old value of the selected database: proofs. *)
From Verif Require Export SpecStale StaleLink.

Section WithParams.
Context {P : Setup}.
Notation idle := (mkT (Ret Prog.rnil) false : thread rdata).
(** The same with further clients, which execute nothing now. *)
Definition extc (k : nat) (c : conf rdata) : conf rdata := mkC (cdb c) (lk c) (ths c ++ replicate k idle).
Definition extw (qs : list peer) (x : world) : world := mkW (wsel x) (map (extc (length qs)) (wcores x)) (peers x ++ qs) (signal x) (now_is x).
Definition lens (x : world) : Prop := forall j c, wcores x !! j = Some c -> length (ths c) = length (peers x).

Lemma ext_cstep T k c c' : cstep T c c' -> cstep T (extc k c) (extc k c').
Proof.
  intros H. destruct H; unfold extc; cbn [cdb lk ths];
    (rewrite <- insert_app_l by (eapply lookup_lt_Some; eauto));
    match goal with H : ?ts !! _ = Some _ |- _ => pose proof (lookup_app_l_Some ts (replicate k idle) _ _ H) end;
    first [eapply C_prim; eassumption|eapply C_rlock; eassumption|eapply C_announce; eassumption|eapply C_wlock; eassumption|eapply C_runlock; eassumption|eapply C_wunlock; eassumption].
Qed.
Lemma cstep_len T (c c' : conf rdata) : cstep T c c' -> length (ths c') = length (ths c).
Proof. intros H. destruct H; cbn; apply insert_length. Qed.
Lemma len_happens T x y : lens x -> races T x y -> lens y /\ length (peers y) = length (peers x).
Proof.
  intros HL [[H|H]|H]; destruct H; cbn [peers wcores] in *; unfold lens in *; cbn [peers wcores] in *; rewrite ?insert_length; (split; [|reflexivity]); auto;
    intros j0 c0 Hj; apply lookup_upd in Hj as [[<- ->]|[_ Hj]]; eauto; cbn [ths]; rewrite ?insert_length; eauto. rewrite (cstep_len _ _ _ H0). eauto.
Qed.
Lemma ext_insert (qs : list peer) cs j c : map (extc (length qs)) (<[j := c]> cs) = <[j := extc (length qs) c]> (map (extc (length qs)) cs).
Proof. apply list_fmap_insert. Qed.
Lemma ext_at k cs j c : cs !! j = Some c -> map (extc k) cs !! j = Some (extc k c).
Proof. intros H. rewrite list_lookup_fmap, H. reflexivity. Qed.
Lemma ext_cdb k cs : map cdb (map (extc k) cs) = map cdb cs.
Proof. rewrite map_map. apply map_ext. reflexivity. Qed.
Lemma ext_wsel qs sl cs ps sg nw : extw qs (mkW sl cs ps sg nw) = mkW sl (map (extc (length qs)) cs) (ps ++ qs) sg nw.
Proof. reflexivity. Qed.
Lemma ext_happens T qs x y : lens x -> (forall q, q ∈ qs -> stg q <> Held) -> happens T x y -> happens T (extw qs x) (extw qs y).
Proof.
  intros HL HQ H. assert (At : forall i p, peers x !! i = Some p -> (peers x ++ qs) !! i = Some p) by (intros; apply lookup_app_l_Some; auto).
  assert (Lt : forall i p, peers x !! i = Some p -> (i < length (peers x))%nat) by (intros; eapply lookup_lt_Some; eauto).
  unfold lens in HL. destruct H as [H|H]; [left|right]; destruct H; cbn [peers wcores] in *; rewrite !ext_wsel; rewrite ?ext_insert; rewrite <- ?insert_app_l by eauto.
  - eapply O_connect; eauto.
  - eapply O_client; eauto.
  - eapply O_signal.
  - eapply W_accept; eauto. intros j p Hp. apply lookup_app_Some in Hp as [Hp|[_ Hp]]; [eauto|]. apply HQ. eapply elem_of_list_lookup_2; eauto.
  - eapply W_serve; eauto.
  - eapply W_exit.
  - eapply W_link; eauto.
  - eapply W_parser_panic; eauto.
  - eapply W_value_panic; eauto.
  - rewrite <- (ext_cdb (length qs) cs). rewrite <- (ext_cdb (length qs) cs) in H2. eapply W_select; eauto.
  - replace (extc (length qs) (mkC (cdb c) (lk c) (<[i := mkT (exec_in_db cmd) false]> (ths c)))) with
      (mkC (cdb (extc (length qs) c)) (lk (extc (length qs) c)) (<[i := mkT (exec_in_db cmd) false]> (ths (extc (length qs) c)))).
    + eapply W_start; eauto. apply ext_at; auto.
    + unfold extc. cbn. rewrite insert_app_l; auto. rewrite (HL _ _ H3). eauto.
  - eapply W_empty_panic; eauto.
  - eapply W_run; [apply ext_at; eauto|apply ext_cstep; auto].
  - eapply W_reply with (c := extc (length qs) c); eauto; [apply ext_at; eauto|apply lookup_app_l_Some; auto].
  - eapply W_reply_panic with (c := extc (length qs) c); eauto; [apply ext_at; eauto|apply lookup_app_l_Some; auto].
  - eapply W_panic; [apply ext_at; eauto|]. apply lookup_app_l_Some. eauto.
Qed.
(** The selection moves when one of the further clients has its SELECT executed. *)
Definition selcmd (k : Z) : command := [Some (B "select"); Some (fmt_int k)].
Definition ready (k : Z) (p : peer) : Prop := stg p = Served /\ runs_on p = None /\ written p = [] /\ fed (selcmd k) (lnk p).
Definition moved (j : nat) (x : world) : world := mkW j (wcores x) (peers x) (signal x) (now_is x).
Lemma sel_is k : is_select (selcmd k) = true.
Proof. reflexivity. Qed.
Lemma sel_select m k : 0 <= k < zlen (mdbs m) -> k <= max_int -> select m (selcmd k) = (ok, mkMgr (Z.to_nat k) (mdbs m)).
Proof.
  intros H Hm. unfold select, selcmd. cbn [str]. rewrite atoi_fmt_int by (unfold min_int, max_int in *; lia).
  destruct (Z.leb_spec (zlen (mdbs m)) k); [lia|]. destruct (Z.ltb_spec k 0); [lia|]. reflexivity.
Qed.
Lemma ready_done T qs1 q qs2 x k : 0 <= k < zlen (wcores x) -> k <= max_int -> now_is x = Running -> ready k q ->
  exists q', happens T (extw (qs1 ++ q :: qs2) x) (extw (qs1 ++ q' :: qs2) (moved (Z.to_nat k) x)) /\ selector k q'.
Proof.
  intros Hk Hm Hr (H1 & H2 & H3 & F). destruct x as [sl cs ps sg nw]. cbn in Hr. subst nw. destruct q as [st l o w]. cbn in H1, H2, H3, F. subst st o w.
  assert (HS : forall n, select (mkMgr sl (map cdb (map (extc n) cs))) (selcmd k) = (ok, mkMgr (Z.to_nat k) (map cdb (map (extc n) cs)))).
  { intros n. apply sel_select; auto. cbn. unfold zlen in *. rewrite !map_length. cbn in Hk. lia. }
  exists (mkPeer Served (reply_to l (selcmd k) ok) None ([] ++ B "+OK" ++ CRLF)). split.
  - right. unfold moved. cbn [wsel wcores peers signal now_is]. rewrite !ext_wsel.
    pose proof (W_select T sl (map (extc (length (qs1 ++ mkPeer Served l None [] :: qs2))) cs) (ps ++ qs1 ++ mkPeer Served l None [] :: qs2) sg (length ps + length qs1) l [] (selcmd k) (B "+OK" ++ CRLF)) as W.
    rewrite HS in W. cbn [fst snd cur] in W.
    replace (<[(length ps + length qs1)%nat := mkPeer Served (reply_to l (selcmd k) ok) None ([] ++ B "+OK" ++ CRLF)]> (ps ++ qs1 ++ mkPeer Served l None [] :: qs2))
      with (ps ++ qs1 ++ mkPeer Served (reply_to l (selcmd k) ok) None ([] ++ B "+OK" ++ CRLF) :: qs2) in W.
    + replace (length (qs1 ++ mkPeer Served (reply_to l (selcmd k) ok) None ([] ++ B "+OK" ++ CRLF) :: qs2)) with (length (qs1 ++ mkPeer Served l None [] :: qs2)) by (rewrite !app_length; reflexivity).
      apply W; auto; [|apply F]. rewrite app_assoc, <- app_length. apply list_lookup_middle. auto.
    + rewrite !app_assoc, <- app_length, <- (Nat.add_0_r (length (ps ++ qs1))), insert_app_r. reflexivity.
  - pose proof (fed_done (selcmd k) l ok ltac:(discriminate) F) as Hd. destruct F as (R & Hs & He & Hl & Hde & Hh & Hn).
    unfold selector, reply_to. cbn. rewrite Hl, He in *. repeat split; auto; apply Hd.
Qed.

(** ** The further clients get ready *)
Lemma lquiet_world T sl cs ps sg i w l l' : rtc lquiet l l' -> forall qs, ps ++ qs = ps ++ qs -> (ps !! i = Some (mkPeer Served l None w)) ->
  rtc (happens T) (mkW sl cs ps sg Running) (mkW sl cs (<[i := mkPeer Served l' None w]> ps) sg Running).
Proof.
  intros R qs _. clear qs. revert ps. induction R as [l|l l1 l2 (St & E & Ed) _ IH]; intros ps Hi; [rewrite list_insert_id by auto; apply rtc_refl|].
  eapply rtc_l; [right; eapply W_link; eauto|]. specialize (IH (<[i := mkPeer Served l1 None w]> ps)). rewrite list_insert_insert in IH. apply IH. apply list_lookup_insert. eapply lookup_lt_Some; eauto.
Qed.
Lemma size_small p : forall n, Z.pos p < 2 ^ Z.of_nat n -> (Pos.size_nat p <= n)%nat.
Proof.
  induction p as [p IH|p IH|]; intros [|n] H; cbn [Pos.size_nat] in *; try lia; rewrite Nat2Z.inj_succ, Z.pow_succ_r in H by lia; assert (Hp : Z.pos p < 2 ^ Z.of_nat n) by lia; specialize (IH n Hp); lia.
Qed.
Lemma fmt_loop_short f : forall n acc, (length (fmt_loop f n acc) <= f + length acc)%nat.
Proof.
    induction f as [|f IH]; intros n acc. cbn [fmt_loop]. lia. cbn [fmt_loop]. destruct (n <? 10)%N. cbn [length]. lia. specialize (IH (n / 10)%N (digit_char (n mod 10) :: acc)). cbn [length] in IH. lia. 
Qed.
Lemma fmt_short k : 0 <= k < 2 ^ 63 -> zlen (fmt_int k) <= 64.
Proof.
  intros Hk. unfold fmt_int. destruct (Z.ltb_spec k 0) as [H|_]; [lia|]. unfold fmt_N, zlen. pose proof (fmt_loop_short (S (N.size_nat (Z.to_N k))) (Z.to_N k) []) as HF. change (@length ascii []) with 0%nat in HF.
  assert (HS : (N.size_nat (Z.to_N k) <= 63)%nat); [|lia]. destruct k as [|p|p]; [cbn; lia| |lia]. cbn [Z.to_N N.size_nat]. apply size_small. apply Hk.
Qed.
Lemma sel_sends k : 0 <= k <= max_int -> exists s, sends [selcmd k] s.
Proof.
  intros Hk. enough (exists f, cmd_frame (selcmd k) f) as [f Hf] by (exists (f ++ []); eapply sends_cons; [exact Hf|constructor]).
  enough (exists bs, Forall2 arg_frame (selcmd k) bs) as [bs Hb].
  { eexists. apply (cf_intro (fmt_int 2) (selcmd k) bs); [discriminate|apply fmt_int_denotes|unfold fits64; vm_compute; split; [discriminate|reflexivity]|exact Hb]. }
  eexists. unfold selcmd.
  constructor; [|constructor; [|constructor]].
  - apply (af_bulk (fmt_int 6)); [apply fmt_int_denotes|vm_compute; discriminate].
  - apply (af_bulk (fmt_int (zlen (fmt_int k)))); [apply fmt_int_denotes|].
    pose proof (fmt_short k ltac:(unfold max_int in Hk; lia)). lia.
Qed.
Notation away := (mkPeer Away opened None []).
Lemma get_ready T sl cs ps1 ps2 k : 0 <= k <= max_int -> (forall p, p ∈ ps1 ++ ps2 -> stg p <> Held) ->
  exists q, ready k q /\ rtc (happens T) (mkW sl cs (ps1 ++ away :: ps2) false Running) (mkW sl cs (ps1 ++ q :: ps2) false Running).
Proof.
  intros Hk HN. destruct (sel_sends k Hk) as [s Hs]. destruct (opened_fed (selcmd k) s Hs) as (l & Rl & Fl). exists (mkPeer Served l None []). split; [repeat split; auto; apply Fl|].
  assert (Hi : forall p, (ps1 ++ p :: ps2) !! length ps1 = Some p) by (intros p; apply list_lookup_middle; auto).
  assert (Hp : forall p q, <[length ps1 := q]> (ps1 ++ p :: ps2) = ps1 ++ q :: ps2).
  { intros p q. rewrite <- (Nat.add_0_r (length ps1)), insert_app_r. reflexivity. }
  eapply rtc_l; [left; apply (O_connect sl cs _ false (length ps1) opened None []); apply Hi|]. rewrite Hp.
  eapply rtc_l; [right; apply (W_accept T sl cs _ false (length ps1) opened None []); [apply Hi|]|].
  { intros j p Hj. apply elem_of_list_lookup_2 in Hj. apply elem_of_app in Hj as [Hj|Hj]; [apply HN; apply elem_of_app; auto|]. apply elem_of_cons in Hj as [->|Hj]; [discriminate|apply HN; apply elem_of_app; auto]. }
  rewrite Hp. eapply rtc_l; [right; apply (W_serve T sl cs _ false (length ps1) opened None []); apply Hi|]. rewrite Hp.
  eapply rtc_l; [left; eapply (O_client sl cs _ false (length ps1) Served opened); [apply Hi|discriminate|apply (K_send [] [] None _ _ _ s); auto]|]. rewrite Hp.
  etransitivity; [eapply (lquiet_world T sl cs _ false (length ps1)); [exact Rl|exact (eq_refl : _ ++ [] = _)|apply Hi]|]. rewrite Hp. apply rtc_refl.
Qed.
Lemma all_ready T sl cs ks : Forall (fun k => 0 <= k <= max_int) ks -> forall ps, (forall p, p ∈ ps -> stg p <> Held) ->
  exists qs, Forall2 ready ks qs /\ rtc (happens T) (mkW sl cs (ps ++ replicate (length ks) away) false Running) (mkW sl cs (ps ++ qs) false Running).
Proof.
  induction 1 as [|k ks Hk _ IH]; intros ps HN; [exists []; split; [constructor|apply rtc_refl]|]. cbn [length replicate].
  destruct (get_ready T sl cs ps (replicate (length ks) away) k Hk) as (q & Hq & R).
  { intros p Hp. apply elem_of_app in Hp as [Hp|Hp]; [auto|]. apply elem_of_replicate in Hp as [-> _]. discriminate. }
  destruct (IH (ps ++ [q])) as (qs & Hqs & R').
  { intros p Hp. apply elem_of_app in Hp as [Hp|Hp]; [auto|]. apply elem_of_list_singleton in Hp as ->. destruct Hq as [-> _]. discriminate. }
  rewrite <- !app_assoc in R'. cbn [app] in R'. exists (q :: qs). split; [constructor; auto|]. etransitivity; eauto.
Qed.
Lemma boot_ext sl ds n m : boot sl ds (n + m) = extw (replicate m away) (boot sl ds n).
Proof.
  unfold boot, extw. cbn. rewrite replicate_length. f_equal; [|apply replicate_add]. rewrite map_map. apply map_ext. intros d. unfold extc, start. cbn. rewrite replicate_add, map_app. f_equal.
  f_equal. clear. induction m; cbn; congruence.
Qed.

(** ** The execution with further clients *)
Definition sized (x : world) : Prop := lens x /\ (wsel x < length (wcores x))%nat.
Lemma sized_races T x y : sized x -> races T x y -> sized y /\ length (wcores y) = length (wcores x).
Proof.
  intros [HL HS] H. destruct (len_happens T x y HL H) as [HL' _]. unfold sized. split; [split; [exact HL'|]|]; clear HL HL'.
  - destruct H as [[H|H]|H]; destruct H; cbn [wsel wcores] in *; rewrite ?insert_length; auto.
    unfold select. destruct cmd as [|? [|a [|? ?]]]; auto. destruct (atoi (str a)); auto. cbn [mdbs]. destruct (Z.leb_spec (zlen (map cdb cs)) z) as [E|E]; auto. destruct (Z.ltb_spec z 0); cbn; auto.
    unfold zlen in E. rewrite map_length in E. lia.
  - destruct H as [[H|H]|H]; destruct H; cbn [wcores] in *; rewrite ?insert_length; auto.
Qed.
Lemma moved_start T x y : lens x -> misled x y -> exists j, (j < length (wcores x))%nat /\ now_is x = Running /\ now_is y = Running /\ wstep T (moved j x) (moved j y) /\ wsel y = wsel x.
Proof.
  intros HL H. destruct H as [sl cs ps sg i l w cmd j c H1 H2 H3 H4 H5]. exists j. split; [eapply lookup_lt_Some; eauto|]. split; auto. split; auto. split; auto. unfold moved. cbn. eapply W_start; eauto.
Qed.
Lemma moved_back j x : moved (wsel x) (moved j x) = x.
Proof. destruct x. reflexivity. Qed.
Lemma ext_len qs k x : length qs = k -> extw qs x = mkW (wsel x) (map (extc k) (wcores x)) (peers x ++ qs) (signal x) (now_is x).
Proof. intros E. unfold extw. rewrite E. reflexivity. Qed.
Lemma races_sim T x y : rtc (races T) x y -> sized x -> zlen (wcores x) <= max_int ->
  exists ks, Forall (fun k => 0 <= k < zlen (wcores x)) ks /\ forall qs0 qs, (forall q, q ∈ qs0 -> stg q <> Held) -> Forall2 ready ks qs ->
    exists qs', Forall2 selector ks qs' /\ rtc (happens T) (extw (qs0 ++ qs) x) (extw (qs0 ++ qs') y).
Proof.
  assert (RH : forall ks qs q, Forall2 ready ks qs -> q ∈ qs -> stg q <> Held).
  { intros ks qs q H Hq. apply elem_of_list_lookup in Hq as [i Hi]. destruct (Forall2_lookup_r _ _ _ _ _ H Hi) as (k & _ & -> & _). discriminate. }
  induction 1 as [x|x x1 y H R IH]; intros HS Hm.
  - exists []. split; [constructor|]. intros qs0 qs _ H. inversion H; subst. exists []. split; [constructor|apply rtc_refl].
  - destruct (sized_races T x x1 HS H) as [HS1 HL1]. destruct IH as (ks & Hks & IH); auto; [unfold zlen in *; rewrite HL1; auto|]. unfold zlen in Hks. rewrite HL1 in Hks. destruct H as [H|H].
    + exists ks. split; [exact Hks|]. intros qs0 qs H0 Hq. destruct (IH qs0 qs H0 Hq) as (qs' & H1 & H2). exists qs'. split; auto. eapply rtc_l; [|exact H2]. apply ext_happens; auto; [apply HS|].
      intros q Hq'. apply elem_of_app in Hq' as [Hq'|Hq']; eauto.
    + destruct (moved_start T x x1 (proj1 HS) H) as (j & Hj & Hr & Hr1 & St & Es). apply (or_intror (A := outside (moved j x) (moved j x1))) in St. pose proof (proj2 HS) as Hsl. exists (Z.of_nat j :: Z.of_nat (wsel x) :: ks).
      split; [constructor; [unfold zlen; lia|constructor; [unfold zlen; lia|exact Hks]]|]. intros qs0 qs H0 Hq. inversion Hq as [|? q1 ? qsr Hq1 Hq']; subst. inversion Hq' as [|? q2 ? qs2 Hq2 Hq3]; subst. clear Hq Hq'.
      unfold zlen in Hm. destruct (ready_done T qs0 q1 (q2 :: qs2) x (Z.of_nat j)) as (q1' & St1 & D1); auto; [unfold zlen; lia|lia|]. rewrite Nat2Z.id in St1.
      assert (N1 : stg q1' <> Held) by (destruct D1 as [-> _]; discriminate).
      destruct (ready_done T (qs0 ++ [q1']) q2 qs2 (moved j x1) (Z.of_nat (wsel x))) as (q2' & St2 & D2); auto; [unfold zlen, moved; cbn; lia|lia|]. rewrite Nat2Z.id, <- Es, moved_back in St2.
      assert (N2 : stg q2' <> Held) by (destruct D2 as [-> _]; discriminate).
      rewrite <- !app_assoc in St2. cbn [app] in St2.
      destruct (IH (qs0 ++ [q1'; q2']) qs2) as (qs' & H1 & H2); auto.
      { intros q Hq. apply elem_of_app in Hq as [Hq|Hq]; auto. apply elem_of_cons in Hq as [->|Hq]; auto. apply elem_of_list_singleton in Hq as ->; auto. }
      rewrite <- !app_assoc in H2. cbn [app] in H2. exists (q1' :: q2' :: qs'). split; [constructor; [exact D1|constructor; [exact D2|exact H1]]|].
      eapply rtc_l; [exact St1|]. eapply rtc_l; [|eapply rtc_l; [exact St2|exact H2]]. apply ext_happens; auto; [apply HS|].
      intros q Hq. apply elem_of_app in Hq as [Hq|Hq]; auto. apply elem_of_cons in Hq as [->|Hq]; auto. apply elem_of_cons in Hq as [->|Hq]; [destruct Hq2 as [-> _]; discriminate|eauto].
Qed.
Lemma boot_sized sl ds n : (sl < length ds)%nat -> sized (boot sl ds n).
Proof.
  intros H. split; [|cbn; rewrite map_length; auto]. intros j c Hj. cbn in *. rewrite list_lookup_fmap in Hj. destruct (ds !! j); [|discriminate]. injection Hj as <-. cbn. rewrite map_length, !replicate_length. auto.
Qed.
Theorem races_as T sl ds n x : (sl < length ds)%nat -> zlen ds <= max_int -> rtc (races T) (boot sl ds n) x ->
  exists ks qs, Forall (fun k => 0 <= k < zlen ds) ks /\ Forall2 selector ks qs /\ rtc (happens T) (boot sl ds (n + length ks)) (extw qs x).
Proof.
  intros Hsl Hm R. assert (EL : zlen (wcores (boot sl ds n)) = zlen ds) by (unfold zlen; cbn; rewrite map_length; auto).
  destruct (races_sim T _ _ R (boot_sized sl ds n Hsl)) as (ks & Hks & HR); [rewrite EL; auto|]. rewrite EL in Hks.
  destruct (all_ready T sl (map (extc (length ks)) (wcores (boot sl ds n))) ks) with (ps := peers (boot sl ds n)) as (qs & Hq & R1).
  { eapply List.Forall_impl; [|exact Hks]. cbn. intros a Ha. lia. }
  { intros p Hp. cbn in Hp. apply elem_of_replicate in Hp as [-> _]. discriminate. }
  destruct (HR [] qs) as (qs' & Hd & R2); [intros q Hq'; inversion Hq'|exact Hq|]. cbn [app] in R2. exists ks, qs'. split; auto. split; auto. rewrite boot_ext. etransitivity; [|exact R2].
  rewrite (ext_len _ (length ks)) by apply replicate_length. rewrite (ext_len qs (length ks)) by (symmetry; eapply Forall2_length; exact Hq). exact R1.
Qed.
(** ** Nothing is held up by the further clients *)
Lemma ext_inv k cs j c : map (extc k) cs !! j = Some c -> exists c0, cs !! j = Some c0 /\ c = extc k c0.
Proof. rewrite list_lookup_fmap. destruct (cs !! j) as [c0|]; [|discriminate]. intros [= <-]. eauto. Qed.
Lemma ext_th k ts i t : (ts ++ replicate k idle) !! i = Some t -> ts !! i = Some t \/ t = idle.
Proof. intros H. apply lookup_app_Some in H as [H|[_ H]]; auto. apply lookup_replicate in H as [-> _]. auto. Qed.
Lemma cstep_inv T k c0 c' : cstep T (extc k c0) c' -> exists c1, cstep T c0 c1 /\ c' = extc k c1.
Proof.
  intros H. destruct c0 as [d L ts]. unfold extc in H. cbn [cdb lk ths] in H. inversion H; subst;
    match goal with H : (ts ++ _) !! _ = Some _ |- _ => apply ext_th in H as [Hi|E]; [pose proof (lookup_lt_Some _ _ _ Hi)|try discriminate E] end;
    try (match goal with H : prim _ _ ?p _ _ |- _ => injection E as ->; inversion H end; fail); rewrite insert_app_l by auto;
    (eexists; split; [first [eapply C_prim; eassumption|eapply C_rlock; eassumption|eapply C_announce; eassumption|eapply C_wlock; eassumption|eapply C_runlock; eassumption|eapply C_wunlock; eassumption]|reflexivity]).
Qed.
Lemma ext_peer ks qs ps i p : Forall2 selector ks qs -> (ps ++ qs) !! i = Some p -> (ps !! i = Some p /\ (i < length ps)%nat) \/ exists k, selector k p.
Proof.
  intros HF H. apply lookup_app_Some in H as [H|[_ H]]; [left; split; auto; eapply lookup_lt_Some; eauto|]. right. destruct (Forall2_lookup_r _ _ _ _ _ HF H) as (k & _ & Hk). eauto.
Qed.
Lemma wstep_inv T ks qs x z : Forall2 selector ks qs -> lens x -> wstep T (extw qs x) z -> exists y, wstep T x y /\ z = extw qs y.
Proof.
  intros HF HL H. destruct x as [sl cs ps sg nw]. rewrite ext_wsel in H. unfold lens in HL. cbn [wcores peers] in HL.
  inversion H; subst;
    repeat match goal with
    | H : map _ cs !! _ = Some _ |- _ => apply ext_inv in H as (c0 & H & ->)
    | H : cstep _ _ _ |- _ => apply cstep_inv in H as (c1 & H & ->)
    end;
    try match goal with
    | H : (ps ++ qs) !! _ = Some _ |- _ => apply (ext_peer ks) in H as [[H Hlt]|(k & E1 & E2 & E3 & E4 & E5 & E6)]; [|cbn in E1, E2, E3, E4; try discriminate; try congruence|exact HF]
    end; rewrite ?insert_app_l by auto.
  - eexists. split; [eapply W_accept; eauto|reflexivity]. intros j p Hj. match goal with H : forall j p, (ps ++ qs) !! j = Some p -> _ |- _ => eapply H end. apply lookup_app_l_Some. exact Hj.
  - eexists. split; [eapply W_serve; eauto|reflexivity].
  - eexists. split; [apply W_exit|reflexivity].
  - eexists. split; [eapply W_link; eauto|reflexivity].
  - destruct E3 as [_ E3]. match goal with H : Pipe.lstep _ _ |- _ => destruct (E3 _ H) end.
  - eexists. split; [eapply W_parser_panic; eauto|reflexivity].
  - destruct E3 as [Ed E3]. destruct l as [lg lu lf ls lp lh ll ld]. cbn in *. subst. edestruct E3. apply L_crash. eassumption.
  - eexists. split; [eapply W_value_panic; eauto|reflexivity].
  - destruct E3 as [Ed E3]. destruct l as [lg lu lf ls lp lh ll ld]. cbn in *. subst. edestruct E3. apply L_nil. eassumption.
  - rewrite ext_cdb in *. eexists. split; [eapply W_select; eauto|reflexivity].
  - eexists. split; [eapply W_start; eauto|]. rewrite ext_wsel, ext_insert. f_equal. f_equal. unfold extc. cbn [cdb lk ths]. rewrite insert_app_l; auto. erewrite HL by eassumption. auto.
  - eexists. split; [eapply W_empty_panic; eauto|reflexivity].
  - eexists. split; [eapply W_run; eauto|]. rewrite ext_wsel, ext_insert. reflexivity.
  - unfold extc in *. cbn [ths] in *. eexists. split; [eapply W_reply; eauto|reflexivity]. match goal with H : (ths _ ++ _) !! _ = Some _ |- _ => rewrite lookup_app_l in H; auto end. erewrite HL by eassumption. auto.
  - unfold extc in *. cbn [ths] in *. eexists. split; [eapply W_reply_panic; eauto|reflexivity]. match goal with H : (ths _ ++ _) !! _ = Some _ |- _ => rewrite lookup_app_l in H; auto end. erewrite HL by eassumption. auto.
  - unfold extc in *. cbn [ths] in *. match goal with H : (ths _ ++ _) !! _ = Some _ |- _ => apply ext_th in H as [H|H]; [|discriminate H] end. eexists. split; [eapply W_panic; eauto|reflexivity].
Qed.
Lemma ext_rests T ks qs x : Forall2 selector ks qs -> lens x -> (forall y, ~ wadvance T x y) -> forall z, ~ wadvance T (extw qs x) z.
Proof.
  intros HF HL Hn z [H Hne]. destruct (wstep_inv T ks qs x z HF HL H) as (y & Hy & ->). apply (Hn y). split; auto. unfold extw in Hne. cbn [peers wcores now_is] in Hne. destruct Hne as [N|[N|N]]; auto.
  - left. intros E. apply N. rewrite E. auto.
  - right. left. intros E. apply N. rewrite !map_map.
    change (fun c => ths (extc (length qs) c)) with (fun c => (fun ts => ts ++ replicate (length qs) idle) (ths c)). rewrite <- !(map_map ths (fun ts => ts ++ replicate (length qs) idle)), E. auto.
Qed.
Lemma ext_spins qs x : spins (extw qs x) <-> spins x.
Proof.
  split; intros (j & c & t & Hj & Ht & E).
  - cbn in Hj. apply ext_inv in Hj as (c0 & Hj & ->). unfold extc in Ht. cbn in Ht. apply elem_of_app in Ht as [Ht|Ht]; [exists j, c0, t; auto|]. apply elem_of_replicate in Ht as [-> _]. discriminate E.
  - exists j, (extc (length qs) c), t. split; [apply ext_at; auto|]. split; auto. unfold extc. cbn. apply elem_of_app. auto.
Qed.
End WithParams.
