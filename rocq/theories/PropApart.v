(** Clients that share no keys: C85. *)
From Verif Require Import DemoWhole MainStart LinMain DemoWire AlikeProofs.

(** * C85  Clients that share no keys do not disturb each other *)
Section C85.
Context {P : Setup} (sys : system).
(** Client [i] sends the commands [cs] and uses no key that another client uses; the others do what they like (except KEYS, SETNX and SELECT), at the same time.
    At every moment what has been answered to client [i] is a history of the reference from nothing, for this client alone: every command in one go, DEL, EXISTS and MGET of several keys too.
    The history only grows, it consists of the first of the client's commands, its replies are what has been written to the client; and between two commands of the client, the entries of its keys
    are those that the history leaves. *)
Theorem C85_alone args fuel c (T : Z -> Prop) lim css (f : nat -> world) N i cs : main sys fuel args = Some (Serves c) -> (exists t, T t) -> (forall t, T t -> t <= lim) ->
  f 0%nat = boot 0 (replicate (Z.to_nat (dbnum c)) empty_db) (length css) -> (forall n, (n < N)%nat -> happens T (f n) (f (S n))) ->
  (forall i p, peers (f N) !! i = Some p -> exists cs, css !! i = Some cs /\ asks (concat (given (lnk p))) cs) ->
  each locked css -> each (far_deadlines T lim) css -> each (fun cmd => ~ called "select" cmd) css -> css !! i = Some cs -> keeps_apart i css ->
  exists (h : nat -> list (Z * command * rdata)) M0, bare M0 /\ h 0%nat = [] /\ (forall n, (n < N)%nat -> exists h', h (S n) = h n ++ h') /\
    forall n p, (n <= N)%nat -> peers (f n) !! i = Some p -> exists M, ref_run M0 (h n) M /\ Forall (fun e => T e.1.1) (h n) /\
      log (lnk p) = deeds (h n) /\ replied (deeds (h n)) (written p) /\ (exists rest, cs = map fst (deeds (h n)) ++ rest) /\
      (runs_on p = None -> forall c key, wcores (f n) !! 0%nat = Some c -> keyed cs key -> wr (lk c (lockpos key)) = false -> stored (cdb c) key = M key).
Proof. intros Hm. pose proof (serves_some sys fuel args c Hm). exact (apart_whole T lim (Z.to_nat (dbnum c)) css f N i cs ltac:(lia)). Qed.
(** When the goroutines have come to rest, all commands of the client have been answered so. *)
Theorem C85_all_answered args fuel c (T : Z -> Prop) lim css x i cs p : main sys fuel args = Some (Serves c) -> serving T lim (Z.to_nat (dbnum c)) css x -> resting T x ->
  css !! i = Some cs -> keeps_apart i css -> peers x !! i = Some p -> stg p <> Away ->
  exists h M0 M, bare M0 /\ ref_run M0 h M /\ map fst (deeds h) = cs /\ replied (deeds h) (written p).
Proof.
  intros Hm. pose proof (serves_some sys fuel args c Hm). intros (Y & B & R & A & L & F & S) (N & W & Z). intros I K Hp G.
  destruct (apart_rests0 T lim (Z.to_nat (dbnum c)) css x i cs p ltac:(lia) Y B R N W Z A L F S I K Hp G) as (h & E & H1 & H2 & H3).
  exists h, (stored empty_db), (stored E). split; [apply bare_empty|]. split; [apply (solo_run _ _ _ _ H1)|]. auto.
Qed.
(** If in addition no command of the client depends on chance, on the order of a map or on the clock, then what the client is sent depends on nothing but its own commands: take two executions, with
    different configurations, different other clients, different times and different speeds; what the client has been sent in the one is the beginning of what it has been sent in the other. *)
Theorem C85_same sys' args1 args2 fuel1 fuel2 c1 c2 T1 T2 lim1 lim2 css1 css2 x1 x2 i1 i2 cs p1 p2 : main sys fuel1 args1 = Some (Serves c1) -> main sys' fuel2 args2 = Some (Serves c2) ->
  serving T1 lim1 (Z.to_nat (dbnum c1)) css1 x1 -> serving T2 lim2 (Z.to_nat (dbnum c2)) css2 x2 -> css1 !! i1 = Some cs -> css2 !! i2 = Some cs -> keeps_apart i1 css1 -> keeps_apart i2 css2 ->
  Forall predictable cs -> peers x1 !! i1 = Some p1 -> peers x2 !! i2 = Some p2 ->
  (exists b, written p2 = written p1 ++ b) \/ (exists b, written p1 = written p2 ++ b).
Proof.
  intros H1 H2. pose proof (serves_some sys fuel1 args1 c1 H1). pose proof (serves_some sys' fuel2 args2 c2 H2). intros (Y1 & B1 & R1 & A1 & L1 & F1 & S1) (Y2 & B2 & R2 & A2 & L2 & F2 & S2).
  intros. eapply (apart_alike T1 T2 lim1 lim2 (Z.to_nat (dbnum c1)) (Z.to_nat (dbnum c2)) css1 css2 x1 x2 i1 i2 cs); auto; lia.
Qed.
(** And when both have come to rest, it has been sent the same. *)
Theorem C85_same_in_the_end sys' args1 args2 fuel1 fuel2 c1 c2 T1 T2 lim1 lim2 css1 css2 x1 x2 i1 i2 cs p1 p2 : main sys fuel1 args1 = Some (Serves c1) -> main sys' fuel2 args2 = Some (Serves c2) ->
  serving T1 lim1 (Z.to_nat (dbnum c1)) css1 x1 -> serving T2 lim2 (Z.to_nat (dbnum c2)) css2 x2 -> resting T1 x1 -> resting T2 x2 ->
  css1 !! i1 = Some cs -> css2 !! i2 = Some cs -> keeps_apart i1 css1 -> keeps_apart i2 css2 ->
  Forall predictable cs -> peers x1 !! i1 = Some p1 -> peers x2 !! i2 = Some p2 -> stg p1 <> Away -> stg p2 <> Away -> written p1 = written p2.
Proof.
  intros H1 H2. pose proof (serves_some sys fuel1 args1 c1 H1). pose proof (serves_some sys' fuel2 args2 c2 H2). intros (Y1 & B1 & R1 & A1 & L1 & F1 & S1) (Y2 & B2 & R2 & A2 & L2 & F2 & S2) (N1 & W1 & Z1) (N2 & W2 & Z2).
  intros. eapply (apart_alike_rests T1 T2 lim1 lim2 (Z.to_nat (dbnum c1)) (Z.to_nat (dbnum c2)) css1 css2 x1 x2 i1 i2 cs); auto; lia.
Qed.
End C85.
Print Assumptions C85_alone.
Print Assumptions C85_all_answered.
Print Assumptions C85_same.
Print Assumptions C85_same_in_the_end.

#[local] Existing Instance demo_setup.
Local Open Scope string_scope.
Definition well_system : system := mkSys (fun _ => true) (fun _ => None) (fun _ => true) (fun _ => false) (fun _ => true) (fun _ _ => true).
Definition some_dbs (n : Z) : config := mkConf (B "127.0.0.1") 6379 (B "./") (B "info") 100 n.
(** Client 0 stores under f and g and asks for both; when f has been read client 1 stores under h, which it then renames to i.  In the other execution client 0 is alone, at another time and with another number of databases. *)
Definition own_cmds : list command := [C ["mset"; "f"; "7"; "g"; "8"]; C ["mget"; "f"; "g"]; C ["del"; "f"; "g"]].
Definition pair_cmds : list (list command) := [own_cmds; [C ["set"; "h"; "9"]; C ["rename"; "h"; "i"]; C ["mget"; "h"; "i"]]].
Definition rds (i n : nat) : list wact := repeat (Go i Read) n.
Definition pair_acts : list wact :=
  ([Connect 1; Connect 0; Accept 0; Serve 0; Accept 1; Serve 1; Client 0 (Send (W "*5&$4&mset&$1&f&$1&7&$1&g&$1&8&*3&$4&mget&$1&f&$1&g&*3&$3&del&$1&f&$1&g&"))] ++ rds 0 11 ++ [Go 0 Pass;
   Cmd (Beg 0); Cmd (Run 0 100); Cmd (Rep 0)] ++ rds 0 7 ++ [Go 0 Pass; Cmd (Beg 0); Cmd (Run 0 5);
   Client 1 (Send (W "*3&$3&set&$1&h&$1&9&*3&$6&rename&$1&h&$1&i&*3&$4&mget&$1&h&$1&i&"))] ++ rds 1 7 ++ [Go 1 Pass; Cmd (Beg 1); Cmd (Run 1 100); Cmd (Rep 1)] ++ rds 1 7 ++ [Go 1 Pass; Cmd (Beg 1); Cmd (Run 1 100); Cmd (Rep 1); Cmd (Run 0 100); Cmd (Rep 0)] ++
   rds 0 7 ++ [Go 0 Pass; Cmd (Beg 0); Cmd (Run 0 5)] ++ rds 1 7 ++ [Go 1 Pass; Cmd (Beg 1); Cmd (Run 1 100); Cmd (Rep 1); Cmd (Run 0 100); Cmd (Rep 0)])%list.
Definition sole_acts : list wact :=
  ([Connect 0; Accept 0; Serve 0; Client 0 (Send (W "*5&$4&mset&$1&f&$1&7&$1&g&$1&8&*3&$4&mget&$1&f&$1&g&*3&$3&del&$1&f&$1&g&"))] ++ rds 0 11 ++ [Go 0 Pass;
   Cmd (Beg 0); Cmd (Run 0 100); Cmd (Rep 0)] ++ rds 0 7 ++ [Go 0 Pass; Cmd (Beg 0); Cmd (Run 0 100); Cmd (Rep 0)] ++ rds 0 7 ++ [Go 0 Pass; Cmd (Beg 0); Cmd (Run 0 100); Cmd (Rep 0)])%list.
Definition fair_b (cmd : command) : bool := negb (cmd_is "keys" cmd) && negb (cmd_is "setnx" cmd) && negb (cmd_is "select" cmd).
Lemma fair_ok css : forallb (forallb fair_b) css = true -> each locked css /\ each (fun cmd => ~ called "select" cmd) css.
Proof.
  intros H. rewrite forallb_forall in H. split; intros cmds cmd H1 H2; specialize (H cmds (proj1 (elem_of_list_In _ _) H1)); rewrite forallb_forall in H; specialize (H cmd (proj1 (elem_of_list_In _ _) H2));
    unfold fair_b in H; apply andb_true_iff in H as [H Hc]; apply andb_true_iff in H as [Ha Hb].
  - split; [destruct (cmd_is "keys" cmd)|destruct (cmd_is "setnx" cmd)]; auto; discriminate.
  - intros (n & args & -> & Hn). unfold cmd_is, named in *. rewrite bool_decide_true in Hc by auto. discriminate.
Qed.
Lemma apart_ok css (i : nat) cs : css !! i = Some cs -> (forall j ds, css !! j = Some ds -> j = i \/ forallb (fun k => negb (bool_decide (k ∈ concat (map key_args ds)))) (concat (map key_args cs)) = true) -> keeps_apart i css.
Proof.
  intros Hi H j cs' ds key Hi' Hj (c1 & A1 & B1) (c2 & A2 & B2). rewrite Hi in Hi'. injection Hi' as <-. destruct (H j ds Hj) as [->|Hb]; [auto|].
  assert (K : forall c (l : list command), c ∈ l -> key ∈ key_args c -> key ∈ concat (map key_args l)).
  { intros c l Hc Hk. apply elem_of_list_In, in_concat. exists (key_args c). split; [apply in_map, elem_of_list_In, Hc|apply elem_of_list_In, Hk]. }
  rewrite forallb_forall in Hb. specialize (Hb key (proj1 (elem_of_list_In _ _) (K _ _ A1 B1))). rewrite bool_decide_true in Hb by (eapply K; eauto). discriminate.
Qed.
Definition predictable_b (cmd : command) : bool := forallb (fun s => negb (cmd_is s cmd)) (any_order ++ ["getrange"; "expire"; "setex"; "ttl"; "set"])%list.
Lemma predictable_ok cs : forallb predictable_b cs = true -> Forall predictable cs.
Proof.
  intros H. rewrite forallb_forall in H. apply List.Forall_forall. intros cmd Hc. specialize (H cmd Hc). unfold predictable_b in H. rewrite forallb_forall in H.
  assert (K : forall s, In s (any_order ++ ["getrange"; "expire"; "setex"; "ttl"; "set"])%list -> ~ called s cmd).
  { intros s Hs (n & args & -> & Hn). specialize (H s Hs). unfold cmd_is, named in *. rewrite bool_decide_true in H by auto. discriminate. }
  split; [|intros Hs; destruct (K "set"); [cbn; tauto|exact Hs]]. intros s Hs. apply K. rewrite in_app_iff in *. cbn [In] in *. tauto.
Qed.
Definition glance (x : world) := (map (fun p => (concat (given (lnk p)), stg p)) (peers x), map written (peers x), now_is x, wquiet x, forallb (fun c => forallb (fun t => match tcode t with Hang => false | _ => true end) (ths c)) (wcores x)).
Lemma glance_rests now x a b : glance x = (a, b, Running, true, true) -> resting (eq now) x.
Proof.
  intros [= E1 E2 E3 E4 E5]. split; [exact E3|]. split; [intros y [Hy _]; exact (wquiet_ok _ _ _ E4 Hy)|].
  intros (j & c & t & Hj & Ht & Hh). rewrite forallb_forall in E5. specialize (E5 c (proj1 (elem_of_list_In _ _) (elem_of_list_lookup_2 _ _ _ Hj))). rewrite forallb_forall in E5.
  specialize (E5 t (proj1 (elem_of_list_In _ _) Ht)). rewrite Hh in E5. discriminate.
Qed.
Example C85_example : main well_system 9 [B "-dbnum=2"] = Some (Serves (some_dbs 2)) /\ main well_system 9 [B "-dbnum=3"] = Some (Serves (some_dbs 3)) /\
  keeps_apart 0 pair_cmds /\ keeps_apart 0 [own_cmds] /\ Forall predictable own_cmds /\
  (exists x, serving (eq 100) 100 2 pair_cmds x /\ resting (eq 100) x /\ map stg (peers x) = [Served; Served] /\ map written (peers x) = [W "+OK&*2&$1&7&$1&8&:2&"; W "+OK&+OK&*2&$-1&$1&9&"]) /\
  (exists x, serving (eq 200) 200 3 [own_cmds] x /\ resting (eq 200) x /\ map stg (peers x) = [Served] /\ map written (peers x) = [W "+OK&*2&$1&7&$1&8&:2&"]).
Proof.
  split; [vm_compute; reflexivity|]. split; [vm_compute; reflexivity|].
  split. { apply (apart_ok pair_cmds 0%nat own_cmds eq_refl). intros [|[|j]] ds [= <-]; [auto|right; vm_compute; reflexivity]. }
  split. { apply (apart_ok [own_cmds] 0%nat own_cmds eq_refl). intros [|j] ds [= <-]; auto. }
  split; [apply predictable_ok; vm_compute; reflexivity|]. split.
  - run_world 100 pair_acts (boot 0 (replicate 2 empty_db) 2) glance. match goal with H : exists y, _ |- _ => destruct H as (x & R & E) end. exists x.
    pose proof (glance_rests 100 _ _ _ E) as Hr. injection E as E1 E2 E3 E4 E5.
    split; [|split; [exact Hr|split; [|rewrite E2; vm_compute; reflexivity]]].
    + destruct (fair_ok pair_cmds) as [F1 F2]; [vm_compute; reflexivity|]. split; [eauto|]. split; [intros t <-; lia|]. split; [exact R|]. split; [|split; [exact F1|split; [apply no_deadline_ok; vm_compute; reflexivity|exact F2]]].
      intros i p Hp. apply (in_peers _ _ _ _ _ E1) in Hp. destruct i as [|[|i]]; [| |discriminate]; injection Hp as <- _; eexists; (split; [reflexivity|]); apply asks_parse; vm_compute; reflexivity.
    + apply (f_equal (map snd)) in E1. rewrite map_map in E1. cbn [map snd] in E1. exact E1.
  - run_world 200 sole_acts (boot 0 (replicate 3 empty_db) 1) glance. match goal with H : exists y, _ |- _ => destruct H as (x & R & E) end. exists x.
    pose proof (glance_rests 200 _ _ _ E) as Hr. injection E as E1 E2 E3 E4 E5.
    split; [|split; [exact Hr|split; [|rewrite E2; vm_compute; reflexivity]]].
    + destruct (fair_ok [own_cmds]) as [F1 F2]; [vm_compute; reflexivity|]. split; [eauto|]. split; [intros t <-; lia|]. split; [exact R|]. split; [|split; [exact F1|split; [apply no_deadline_ok; vm_compute; reflexivity|exact F2]]].
      intros i p Hp. apply (in_peers _ _ _ _ _ E1) in Hp. destruct i as [|i]; [|discriminate]; injection Hp as <- _; eexists; (split; [reflexivity|]); apply asks_parse; vm_compute; reflexivity.
    + apply (f_equal (map snd)) in E1. rewrite map_map in E1. cbn [map snd] in E1. exact E1.
Qed.
(** SELECT is another matter: there is one selected database for all clients.  Client 0 stores 7 under f; client 1, which uses no key at all, selects database 1; client 0 no longer finds f. *)
Definition own_pair : list command := [C ["set"; "f"; "7"]; C ["get"; "f"]].
Definition sel_cmds : list (list command) := [own_pair; [C ["select"; "1"]]].
Definition sel_acts : list wact :=
  ([Connect 1; Connect 0; Accept 0; Serve 0; Accept 1; Serve 1; Client 0 (Send (W "*3&$3&set&$1&f&$1&7&*2&$3&get&$1&f&"))] ++ rds 0 7 ++ [Go 0 Pass; Cmd (Beg 0); Cmd (Run 0 100); Cmd (Rep 0);
   Client 1 (Send (W "*2&$6&select&$1&1&"))] ++ rds 1 5 ++ [Go 1 Pass; Cmd (Sel 1)] ++ rds 0 5 ++ [Go 0 Pass; Cmd (Beg 0); Cmd (Run 0 100); Cmd (Rep 0)])%list.
Example C85_select_refuted : keeps_apart 0 sel_cmds /\
  exists x, rtc (happens (eq 100)) (boot 0 (replicate 2 empty_db) 2) x /\ resting (eq 100) x /\
    (forall i p, peers x !! i = Some p -> exists cs, sel_cmds !! i = Some cs /\ asks (concat (given (lnk p))) cs) /\ map written (peers x) = [W "+OK&$-1&"; W "+OK&"].
Proof.
  split. { apply (apart_ok sel_cmds 0%nat own_pair eq_refl). intros [|[|j]] ds [= <-]; [auto|right; vm_compute; reflexivity]. }
  run_world 100 sel_acts (boot 0 (replicate 2 empty_db) 2) glance. match goal with H : exists y, _ |- _ => destruct H as (x & R & E) end. exists x.
  pose proof (glance_rests 100 _ _ _ E) as Hr. injection E as E1 E2 E3 E4 E5. split; [exact R|]. split; [exact Hr|]. split; [|rewrite E2; vm_compute; reflexivity].
  intros i p Hp. apply (in_peers _ _ _ _ _ E1) in Hp. destruct i as [|[|i]]; [| |discriminate]; injection Hp as <- _; eexists; (split; [reflexivity|]); apply asks_parse; vm_compute; reflexivity.
Qed.
