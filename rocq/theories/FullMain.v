(** Where no container is empty, the commands outside [may_empty] keep it so. *)
From Verif Require Export FullCmds.

Section WithParams.
Context {P : Setup}.
(** ** The random commands meet no empty container *)
Lemma neg_ok n sz : Z.abs n <= 2 ^ 43 -> 0 <= sz <= 24 -> n <= 0 -> make_ok (wrap64 (- n)) sz = true.
Proof. intros Hn Hs H. rewrite wrap64_small by (unfold min_int, max_int; lia). unfold make_ok. apply andb_true_iff. split; apply Z.leb_le; nia. Qed.
Lemma fl_draw_many' L n ks : body false L (draw_many n ks).
Proof. induction n; cbn [draw_many]; repeat fl_step. Qed.
Lemma fl_random_keys' L sz ks n : Z.abs n <= 2 ^ 43 -> 0 <= sz <= 24 -> body false L (random_keys sz ks n).
Proof.
  intros Hn Hs. unfold random_keys. destruct (_ || _); [apply bd_ret|]. destruct (Z.ltb_spec 0 n); [repeat fl_step|]. cbv zeta. rewrite neg_ok by (auto; lia). apply fl_draw_many'.
Qed.
Lemma fl_random_one {A : Type} L sz ks (f : list bytes -> prog A) : ks <> [] -> (forall x, body false L (f [x])) -> body false L (pbind (random_keys sz ks 1) f).
Proof.
  intros Hne Hf. unfold random_keys. destruct (zlen ks =? 0) eqn:E.
  - apply Z.eqb_eq in E. destruct ks; [congruence|]. unfold zlen in E. cbn in E. lia.
  - cbn [Z.eqb orb Z.ltb Z.compare pbind]. apply bd_range. intros o Ho. assert (Hc : Z.to_nat (if zlen ks <? 1 then zlen ks else 1) = 1%nat).
    { destruct (Z.ltb_spec (zlen ks) 1); [|reflexivity]. apply Z.eqb_neq in E. unfold zlen in *. lia. }
    rewrite Hc. destruct o as [|x o]; [destruct Hne; apply Permutation_nil; auto|]. cbn [take]. rewrite take_0. apply Hf.
Qed.
Lemma fields_ne h : hollow (VHash h) = false -> hash_fields h <> [].
Proof. cbn. intros H E. apply bool_decide_eq_false in H. apply H. unfold hash_fields in E. apply fmap_nil_inv in E. apply map_to_list_empty_iff. exact E. Qed.
Lemma elements_ne (s : gset bytes) : hollow (VSet s) = false -> elements s <> [].
Proof. cbn. intros H E. apply bool_decide_eq_false in H. apply H. apply elements_empty_iff in E. set_solver. Qed.
Lemma fl_hrandfield' cmd : (forall a n, cmd !! 2%nat = Some a -> atoi (str a) = Some n -> Z.abs n <= 2 ^ 43) -> top false (hrandfield_hash cmd).
Proof.
  intros H. assert (HR : forall k n w, Z.abs n <= 2 ^ 43 -> top false (hrandfield_run k n w)).
  { intros k n w Hn. unfold hrandfield_run. cbv zeta. apply tp_lock. apply bd_get_bind; [in_locks|]. intros [[]|] Hx; apply kn_body; try apply bd_ret. destruct (n =? 1).
    - apply fl_random_one; [apply fields_ne; apply Hx; reflexivity|]. intros. apply bd_ret.
    - destruct w; (apply bd_bind; [apply fl_random_keys'; [exact Hn|lia]|intros; apply bd_ret]). }
  unfold hrandfield_hash. destruct cmd as [|? [|k [|n [|w []]]]]; try apply tp_ret; (apply tp_bind; [apply tp_purge|]); intros [|]; try apply tp_ret.
  - apply HR. lia.
  - destruct (atoi (str n)) as [z|] eqn:E; [|apply tp_ret]. apply HR. eapply H; [reflexivity|exact E].
  - destruct (atoi (str n)) as [z|] eqn:E; [|apply tp_ret]. destruct (beq _ _); [|apply tp_ret]. apply HR. eapply H; [reflexivity|exact E].
Qed.
Lemma fl_srandmember' cmd : (forall a n, cmd !! 2%nat = Some a -> atoi (str a) = Some n -> Z.abs n <= 2 ^ 43) -> top false (srandmember_set cmd).
Proof.
  intros H. assert (HR : forall k n, (forall z, n = Some z -> Z.abs z <= 2 ^ 43) -> top false (srandmember_run k n)).
  { intros k n Hn. unfold srandmember_run. cbv zeta. apply tp_lock. apply bd_get_bind; [in_locks|]. intros [[]|] Hx; apply kn_body; try apply bd_ret. destruct n as [n|].
    - specialize (Hn n eq_refl). assert (Hm : make_ok (if n <? 0 then wrap64 (- n) else n) 16 = true).
      { destruct (Z.ltb_spec n 0); [apply neg_ok; lia|]. unfold make_ok. apply andb_true_iff. split; apply Z.leb_le; nia. }
      rewrite Hm. apply bd_bind; [apply fl_random_keys'; [exact Hn|lia]|intros; apply bd_ret].
    - apply fl_random_one; [apply elements_ne; apply Hx; reflexivity|]. intros []; apply bd_ret. }
  unfold srandmember_set. destruct cmd as [|? [|k [|n []]]]; try apply tp_ret; (apply tp_bind; [apply tp_purge|]); intros [|]; try apply tp_ret.
  - apply HR. discriminate.
  - destruct (atoi (str n)) as [z|] eqn:E; [|apply tp_ret]. destruct (z =? 0); [apply tp_ret|]. apply HR. intros y [= <-]. eapply H; [reflexivity|exact E].
Qed.
(** ** All commands *)
Lemma exec_full_any cmd : ~ may_empty cmd -> top true (exec_in_db cmd).
Proof.
  intros He. unfold exec_in_db. destruct cmd as [|n args]; [apply tp_crash; reflexivity|]. destruct (lookup_cmd (to_lower (str n))) as [ex|] eqn:E; [|apply tp_ret].
  unfold may_empty in He. unfold named in *. apply assoc_in in E. unfold cmd_table in E. cbn [In] in E.
  repeat (destruct E as [E|E]; [injection E as E <-; rewrite <- E in He|]); [..|destruct E];
  first
    [ first [apply fl_ping|apply fl_del|apply fl_exists|apply fl_keys|apply fl_expire|apply fl_persist|apply fl_ttl|apply fl_rename|apply fl_type|apply fl_set|apply fl_get|apply fl_getrange|apply fl_setrange|apply fl_mget|apply fl_mset
        |apply fl_setex|apply fl_setnx|apply fl_strlen|apply fl_incr|apply fl_incrby|apply fl_decr|apply fl_decrby|apply fl_incrbyfloat|apply fl_append
        |apply fl_hdel|apply fl_hexists|apply fl_hget|apply fl_hgetall|apply fl_hkeys|apply fl_hlen|apply fl_hmget|apply fl_hmset|apply fl_hset|apply fl_hsetnx|apply fl_hvals|apply fl_hstrlen|apply fl_hrandfield
        |apply fl_lindex|apply fl_llen|apply fl_lpos|apply fl_lrange|apply fl_linsert|apply fl_lset|apply (fl_pop true true)|apply (fl_pop true false)|apply (fl_push true true)|apply (fl_push true false)|apply (fl_pushx true true)|apply (fl_pushx true false)|apply fl_lrem|apply fl_ltrim
        |apply fl_sadd|apply fl_scard|apply fl_sismember|apply fl_smembers|apply fl_srandmember|apply (fl_setop OpInter)|apply (fl_setop OpDiff)|apply (fl_setop OpUnion)|apply fl_smove|apply fl_spop]; fail
    | apply fl_hincrby; intros a Ha Hn; apply He; right; left; split; [reflexivity|]; exists a; auto; fail
    | apply fl_hincrbyfloat; intros a Ha Hn; apply He; right; right; split; [reflexivity|]; exists a; auto; fail
    | destruct He; left;
      first [exists "srem"%string; split; [cbn; tauto|reflexivity]|exists "sinterstore"%string; split; [cbn; tauto|reflexivity]|exists "sdiffstore"%string; split; [cbn; tauto|reflexivity]
            |exists "sunionstore"%string; split; [cbn; tauto|reflexivity]|exists "lmove"%string; split; [cbn; tauto|reflexivity]] ].
Qed.
Lemma lookup_named n (s : string) : named n s -> lookup_cmd (to_lower (str n)) = lookup_cmd (B s).
Proof. intros H. unfold named in H. rewrite H. reflexivity. Qed.
Lemma exec_full cmd c : ~ may_empty cmd -> (c = false -> panic_free cmd \/ calm_when_full cmd) -> top c (exec_in_db cmd).
Proof.
  intros He Hc. pose proof (exec_full_any cmd He) as HT. destruct c; [exact HT|]. destruct (Hc eq_refl) as [Hp|Hp].
  - eapply (full_safe _ true); [apply (exec_safe cmd false true); [auto|discriminate]|..| |exact HT].
    + intros q y Hy. rewrite lookup_empty in Hy. discriminate.
    + auto.
    + intros q y Hy. exact Hy.
  - destruct cmd as [|n args]; [destruct Hp|]. unfold exec_in_db. destruct Hp as [Hp|[[Hp|Hp] Ha]]; rewrite (lookup_named _ _ Hp).
    + apply fl_ltrim.
    + apply fl_hrandfield'. intros a m. apply Ha.
    + apply fl_srandmember'. intros a m. apply Ha.
Qed.
(** ** One client, and many *)
Lemma step_full T d cmd out : runs T d (exec_in_db cmd) out -> no_hollow d -> ~ may_empty cmd ->
  (forall r d', out = Done r d' -> no_hollow d') /\ (panic_free cmd \/ calm_when_full cmd -> forall d', out <> Crashes d').
Proof.
  intros R Hd He. assert (HH : forall c, (c = false -> panic_free cmd \/ calm_when_full cmd) -> (forall d', out = Crashes d' -> c = true) /\ (forall r d', out = Done r d' -> no_hollow d')).
  { intros c Hc. eapply full_runs; [exact R| | | |].
    - eapply full_post; [apply exec_full; [exact He|exact Hc]|]. intros L K a [-> ->]. apply settled_empty.
    - intros q y Hy. rewrite lookup_empty in Hy. discriminate.
    - intros q y Hy. rewrite lookup_empty in Hy. discriminate.
    - intros q v Hv E. rewrite (Hd _ _ Hv) in E. discriminate. }
  split.
  - destruct (HH true) as [_ H]; [discriminate|exact H].
  - intros Hp d' E. destruct (HH false) as [H _]; [auto|]. discriminate (H _ E).
Qed.
Lemma tidy_full d : tidy_reachable d -> no_hollow d.
Proof. induction 1 as [|d cmd r d' _ IH He R]; [intros k v Hv; cbn in Hv; rewrite lookup_empty in Hv; discriminate|]. destruct (step_full _ _ _ _ R IH He) as [H _]. eapply H; reflexivity. Qed.
Lemma client_full cmds c : (forall cmd, cmd ∈ cmds -> ~ may_empty cmd /\ (c = false -> panic_free cmd \/ calm_when_full cmd)) -> forall acc, top c (client_from acc cmds).
Proof.
  induction cmds as [|cmd r IH]; intros H acc; cbn [client_from]; [apply tp_ret|]. destruct (H cmd ltac:(left)) as [H1 H2]. apply tp_bind; [apply exec_full; auto|].
  intros x. apply IH. intros c' Hc. apply H. right. exact Hc.
Qed.
Lemma clients_full T d cs c fl : rtc (cstep T) (clients d cs) c -> no_hollow d ->
  (forall i cmds cmd, cs !! i = Some cmds -> cmd ∈ cmds -> ~ may_empty cmd /\ (fl i = false -> panic_free cmd \/ calm_when_full cmd)) -> all_full fl c.
Proof.
  intros R Hd H. assert (H0 : all_full fl (clients d cs)).
  { unfold clients. apply all_full_start; [|exact Hd|].
    - apply Forall_fmap, Forall_forall. intros cmds _. apply wf_client; auto.
    - intros i p Hp. rewrite list_lookup_fmap in Hp. destruct (cs !! i) as [cmds|] eqn:E; [|discriminate]. injection Hp as <-.
      eapply full_post; [apply client_full; eauto|]. intros L K a [-> ->]. apply settled_empty. }
  clear H. induction R; auto. apply IHR. eapply all_full_step; eauto.
Qed.
Lemma clients_hollow T d cs c key v : rtc (cstep T) (clients d cs) c -> no_hollow d -> (forall i cmds cmd, cs !! i = Some cmds -> cmd ∈ cmds -> ~ may_empty cmd) ->
  dict (cdb c) !! key = Some v -> hollow v = true -> wr (lk c (lockpos key)) = true.
Proof. intros R Hd H Hv E. eapply (all_full_wr (fun _ => true)); [eapply clients_full; [exact R|exact Hd|]|exact Hv|exact E]. intros i cmds cmd H1 H2. split; [eauto|discriminate]. Qed.
Lemma clients_hollow_done T d cs c : rtc (cstep T) (clients d cs) c -> no_hollow d -> (forall i cmds cmd, cs !! i = Some cmds -> cmd ∈ cmds -> ~ may_empty cmd) ->
  (forall i t, ths c !! i = Some t -> exists rs, tcode t = Ret rs) -> no_hollow (cdb c).
Proof. intros R Hd H HR. eapply (all_full_done (fun _ => true)); [eapply clients_full; [exact R|exact Hd|]|exact HR]. intros i cmds cmd H1 H2. split; [eauto|discriminate]. Qed.
Lemma clients_full_no_panic T d cs c i cmds t : rtc (cstep T) (clients d cs) c -> no_hollow d -> (forall i cmds cmd, cs !! i = Some cmds -> cmd ∈ cmds -> ~ may_empty cmd) ->
  cs !! i = Some cmds -> (forall cmd, cmd ∈ cmds -> panic_free cmd \/ calm_when_full cmd) -> ths c !! i = Some t -> tcode t <> Crash.
Proof.
  intros R Hd H Hi Hc Ht E. assert (HS : all_full (fun j => negb (j =? i)%nat) c).
  { eapply clients_full; [exact R|exact Hd|]. intros j cmds' cmd Hj Hm. split; [eauto|]. intros F. apply negb_false_iff, Nat.eqb_eq in F as ->. apply Hc. congruence. }
  pose proof (all_full_at _ _ _ _ HS Ht E) as H1. cbn in H1. rewrite Nat.eqb_refl in H1. discriminate.
Qed.
End WithParams.
