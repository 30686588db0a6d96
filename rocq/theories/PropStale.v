(** Handlers that see an old value of the selected database: C86. *)
From Verif Require Import DemoWhole MainStart LinMain DemoWire StaleMain.

(** * C86  An old view of the selected database does what a SELECT could do *)
Section C86.
Context {P : Setup} (sys : system).
(** Manager.db is read and written without a lock, so a handler may see an older value than the last one written.  We let it see any database, at any command ([races], SpecStale.v).
    Every state of such an execution is a state of an execution in which all see the last value written, with some more clients, each of which has only sent a SELECT of an existing database
    and has got its OK: the same replies, the same bytes, the same databases and locks, the same selected database, the same fate of the process. *)
Theorem C86_old_view args fuel c T n x : main sys fuel args = Some (Serves c) -> rtc (races T) (boot 0 (replicate (Z.to_nat (dbnum c)) empty_db) n) x ->
  exists ks qs x', Forall (fun k => 0 <= k < dbnum c) ks /\ Forall2 selector ks qs /\ rtc (happens T) (boot 0 (replicate (Z.to_nat (dbnum c)) empty_db) (n + length ks)) x' /\ enlarged qs x x'.
Proof. intros Hm R. exact (stale_as_main sys fuel args c T n x Hm R). Qed.
(** The same from any databases, as long as they can be counted. *)
Theorem C86_any T sl ds n x : (sl < length ds)%nat -> zlen ds <= max_int -> rtc (races T) (boot sl ds n) x ->
  exists ks qs x', Forall (fun k => 0 <= k < zlen ds) ks /\ Forall2 selector ks qs /\ rtc (happens T) (boot sl ds (n + length ks)) x' /\ enlarged qs x x'.
Proof. exact (stale_as T sl ds n x). Qed.
(** So all clients are served: when the goroutines have come to rest, every client that has connected has been answered all its commands ... *)
Theorem C86_served (T : Z -> Prop) now sl ds n x : T now -> (sl < length ds)%nat -> zlen ds <= max_int -> rtc (races T) (boot sl ds n) x -> now_is x = Running -> (forall y, ~ wadvance T x y) ->
  spins x \/ forall i p, peers x !! i = Some p -> stg p <> Away -> stg p = Served /\
    forall ks t, reads_as (concat (given (lnk p))) ks t -> map fst (log (lnk p)) = commands (values None ks) /\ replied (log (lnk p)) (written p) /\
      (hnd (lnk p) = HIdle /\ ended (lnk p) = None /\ t <> Fatal /\ (forall e, EvErr e ∉ values None ks) \/ exists e, hnd (lnk p) = HGone e /\ (ended (lnk p) <> None \/ EvErr e ∈ values None ks)).
Proof. exact (stale_served T now sl ds n x). Qed.
(** ... and they do come to rest, unless a client does something. *)
Theorem C86_finite T sl ds n (f : nat -> world) : (sl < length ds)%nat -> rtc (races T) (boot sl ds n) (f 0%nat) -> ~ (forall n, wadvance T (f n) (f (S n)) \/ misled (f n) (f (S n))).
Proof. exact (stale_finite T sl ds n f). Qed.
(** The process panics for no other reason than without old views (C69). *)
Theorem C86_no_panic T sl ds n x : (sl < length ds)%nat -> zlen ds <= max_int -> rtc (races T) (boot sl ds n) x ->
  (forall i p, peers x !! i = Some p -> exists ks t, reads_as (concat (given (lnk p))) ks t /\ t <> Fatal /\ forall ev, ev ∈ values None ks -> ~ fatal_value ev) ->
  (forall i p cmd, peers x !! i = Some p -> cmd ∈ handed (lnk p) -> panic_free cmd) -> now_is x <> Panicked.
Proof. exact (stale_no_panic T sl ds n x). Qed.
(** What is written to a client are RESP frames, one per command executed for it (C67). *)
Theorem C86_frames T sl ds n x : (sl < length ds)%nat -> zlen ds <= max_int -> rtc (races T) (boot sl ds n) x ->
  (forall i p cmd, peers x !! i = Some p -> cmd ∈ handed (lnk p) -> may_echo cmd -> crlf_free cmd) ->
  forall i p, peers x !! i = Some p -> frames (map snd (log (lnk p))) (written p).
Proof. exact (stale_frames T sl ds n x). Qed.
(** And the replies and the contents are those of the reference server of C78, beside which some more clients, [m] of them, have executed one SELECT each. *)
Theorem C86_reference args fuel c (T : Z -> Prop) lim css x : main sys fuel args = Some (Serves c) -> (exists t, T t) -> (forall t, T t -> t <= lim) ->
  rtc (races T) (boot 0 (replicate (Z.to_nat (dbnum c)) empty_db) (length css)) x ->
  (forall i p, peers x !! i = Some p -> exists cs, css !! i = Some cs /\ asks (concat (given (lnk p))) cs) ->
  each locked css -> each (far_deadlines T lim) css ->
  exists m z0 z, clean_slate (Z.to_nat (dbnum c)) (length css + m) z0 /\ rtc (serves T) z0 z /\ holds x z.1 /\
    (forall i p, peers x !! i = Some p -> exists a cs rest, z.2 !! i = Some a /\ agrees p a /\
        css !! i = Some cs /\ cs = map fst (paid a) ++ match current a with Some t => [asked_for t] | None => [] end ++ rest) /\
    forall i a, (length css <= i)%nat -> z.2 !! i = Some a -> exists k, 0 <= k < dbnum c /\ a = mkAcc [([Some (B "select"); Some (fmt_int k)], ok)] None.
Proof. exact (stale_parts_main sys fuel args c T lim css x). Qed.
Theorem C86_all_answered args fuel c (T : Z -> Prop) lim css x : main sys fuel args = Some (Serves c) -> (exists t, T t) -> (forall t, T t -> t <= lim) ->
  rtc (races T) (boot 0 (replicate (Z.to_nat (dbnum c)) empty_db) (length css)) x -> now_is x = Running -> (forall y, ~ wadvance T x y) -> ~ spins x ->
  (forall i p, peers x !! i = Some p -> stg p <> Away /\ exists cs, css !! i = Some cs /\ asks (concat (given (lnk p))) cs) ->
  each locked css -> each (far_deadlines T lim) css ->
  exists m z0 z, clean_slate (Z.to_nat (dbnum c)) (length css + m) z0 /\ rtc (serves T) z0 z /\ holds x z.1 /\
    (forall i p cs, peers x !! i = Some p -> css !! i = Some cs -> exists a, z.2 !! i = Some a /\ current a = None /\ map fst (paid a) = cs /\ replied (paid a) (written p)) /\
    forall i a, (length css <= i)%nat -> z.2 !! i = Some a -> exists k, 0 <= k < dbnum c /\ a = mkAcc [([Some (B "select"); Some (fmt_int k)], ok)] None.
Proof. exact (stale_answered_main sys fuel args c T lim css x). Qed.
End C86.
Print Assumptions C86_old_view.
Print Assumptions C86_any.
Print Assumptions C86_served.
Print Assumptions C86_finite.
Print Assumptions C86_no_panic.
Print Assumptions C86_frames.
Print Assumptions C86_reference.
Print Assumptions C86_all_answered.

#[local] Existing Instance demo_setup.
Local Open Scope string_scope.
Definition fit_system : system := mkSys (fun _ => true) (fun _ => None) (fun _ => true) (fun _ => false) (fun _ => true) (fun _ _ => true).
Definition two_dbs : config := mkConf (B "127.0.0.1") 6379 (B "./") (B "info") 100 2.
(** Client 0 stores 7 under f and selects database 1; after its OK client 1, which still sees database 0, asks for f, and once more when it sees the selection: it gets 7 and then nothing. *)
Definition late_cmds : list (list command) := [[C ["set"; "f"; "7"]; C ["select"; "1"]]; [C ["get"; "f"]; C ["get"; "f"]]].
Definition early_acts : list wact :=
  [Connect 1; Connect 0; Accept 0; Serve 0; Accept 1; Serve 1; Client 0 (Send (W "*3&$3&set&$1&f&$1&7&*2&$6&select&$1&1&")); Go 0 Read; Go 0 Read; Go 0 Read; Go 0 Read; Go 0 Read; Go 0 Read; Go 0 Read; Go 0 Pass;
   Cmd (Beg 0); Cmd (Run 0 100); Cmd (Rep 0); Go 0 Read; Go 0 Read; Go 0 Read; Go 0 Read; Go 0 Read; Go 0 Pass; Cmd (Sel 0);
   Client 1 (Send (W "*2&$3&get&$1&f&*2&$3&get&$1&f&")); Go 1 Read; Go 1 Read; Go 1 Read; Go 1 Read; Go 1 Read; Go 1 Pass].
Definition late_acts : list wact :=
  [Cmd (Run 1 100); Cmd (Rep 1); Go 1 Read; Go 1 Read; Go 1 Read; Go 1 Read; Go 1 Read; Go 1 Pass; Cmd (Beg 1); Cmd (Run 1 100); Cmd (Rep 1)].
(** The handler of client [i] starts its command on database [j]. *)
Definition mislead (i j : nat) (x : world) : option world :=
  match peers x !! i, wcores x !! j, now_is x with
  | Some (mkPeer Served l None w), Some c, Running =>
      match hnd l with
      | HExec (v :: cmd) => if is_select (v :: cmd) then None else
          Some (mkW (wsel x) (<[j := mkC (cdb c) (lk c) (<[i := mkT (exec_in_db (v :: cmd)) false]> (ths c))]> (wcores x)) (<[i := mkPeer Served l (Some j) w]> (peers x)) (signal x) Running)
      | _ => None end
  | _, _, _ => None end.
Lemma mislead_ok i j x y : mislead i j x = Some y -> misled x y.
Proof.
  unfold mislead. destruct x as [sl cs ps sg nw]. cbn [peers wcores now_is wsel signal]. destruct (ps !! i) as [[[] l [o|] w]|] eqn:E1; try discriminate. destruct (cs !! j) as [c|] eqn:E2; try discriminate. destruct nw; try discriminate.
  destruct (hnd l) as [|[|v cmd]| |] eqn:E3; try discriminate. destruct (is_select (v :: cmd)) eqn:E4; [discriminate|]. intros H. apply (inj Some) in H as <-. apply (M_start sl cs ps sg i l w (v :: cmd) j c); auto.
Qed.
Definition late_run : option world := match wplay 100 early_acts (boot 0 (replicate 2 empty_db) 2) with Some x => match mislead 1 0 x with Some y => wplay 100 late_acts y | None => None end | None => None end.
Definition look (x : world) := (map (fun p => (concat (given (lnk p)), stg p)) (peers x), map written (peers x), (wsel x, now_is x), wquiet x, forallb (fun c => forallb (fun t => match tcode t with Hang => false | _ => true end) (ths c)) (wcores x)).
Lemma late_ok v : look <$> late_run = Some v -> exists x, rtc (races (eq 100)) (boot 0 (replicate 2 empty_db) 2) x /\ look x = v.
Proof.
  assert (S : forall x y, rtc (happens (eq 100)) x y -> rtc (races (eq 100)) x y) by (induction 1 as [|x y z H _ IH]; [apply rtc_refl|eapply rtc_l; [left; exact H|exact IH]]).
  unfold late_run. destruct (wplay 100 early_acts _) as [x|] eqn:E1; [|discriminate]. destruct (mislead 1 0 x) as [y|] eqn:E2; [|discriminate]. destruct (wplay 100 late_acts y) as [z|] eqn:E3; [|discriminate]. intros [= <-].
  exists z. split; [|reflexivity]. etransitivity; [apply S, (wplay_ok _ _ _ _ E1)|]. eapply rtc_l; [right; apply (mislead_ok _ _ _ _ E2)|]. apply S, (wplay_ok _ _ _ _ E3).
Qed.
Example C86_example : main fit_system 9 [B "-dbnum=2"] = Some (Serves two_dbs) /\ each locked late_cmds /\ each (far_deadlines (eq 100) 100) late_cmds /\
  exists x, rtc (races (eq 100)) (boot 0 (replicate (Z.to_nat (dbnum two_dbs)) empty_db) 2) x /\ now_is x = Running /\ (forall y, ~ wadvance (eq 100) x y) /\ ~ spins x /\
    (forall i p, peers x !! i = Some p -> stg p <> Away /\ exists cs, late_cmds !! i = Some cs /\ asks (concat (given (lnk p))) cs) /\
    wsel x = 1%nat /\ map written (peers x) = [W "+OK&+OK&"; W "$1&7&$-1&"].
Proof.
  split; [vm_compute; reflexivity|]. split; [intros cmds cmd H1 H2|].
  { assert (H : forallb (forallb (fun cmd => negb (cmd_is "keys" cmd) && negb (cmd_is "setnx" cmd))) late_cmds = true) by (vm_compute; reflexivity).
    rewrite forallb_forall in H. specialize (H cmds (proj1 (elem_of_list_In _ _) H1)). rewrite forallb_forall in H. specialize (H cmd (proj1 (elem_of_list_In _ _) H2)).
    apply andb_true_iff in H as [Ha Hb]. split; [destruct (cmd_is "keys" cmd)|destruct (cmd_is "setnx" cmd)]; auto; discriminate. }
  split; [apply no_deadline_ok; vm_compute; reflexivity|].
  let v := eval vm_compute in (look <$> late_run) in match v with Some ?a => assert (H : look <$> late_run = Some a) by (vm_cast_no_check (eq_refl (Some a))) end.
  apply late_ok in H as (x & R & E). exists x. injection E as E1 E2 E3 E4 E5 E6. split; [exact R|]. split; [exact E4|]. split; [intros y [Hy _]; exact (wquiet_ok _ _ _ E5 Hy)|].
  split; [|split; [|split; [exact E3|rewrite E2; vm_compute; reflexivity]]].
  - intros (j & c & t & Hj & Ht & Hh). rewrite forallb_forall in E6. specialize (E6 c (proj1 (elem_of_list_In _ _) (elem_of_list_lookup_2 _ _ _ Hj))). rewrite forallb_forall in E6.
    specialize (E6 t (proj1 (elem_of_list_In _ _) Ht)). rewrite Hh in E6. discriminate.
  - intros i p Hp. apply (in_peers _ _ _ _ _ E1) in Hp. destruct i as [|[|i]]; [| |discriminate]; injection Hp as <- <-; (split; [discriminate|]); eexists; (split; [reflexivity|]); apply asks_parse; vm_compute; reflexivity.
Qed.
(** Without old views this cannot happen when client 1 sends its commands only after client 0 has its OK and nobody else sends anything: it gets nothing both times. *)
Definition plain_run : option world := match wplay 100 early_acts (boot 0 (replicate 2 empty_db) 2) with Some x => wplay 100 (Cmd (Beg 1) :: late_acts) x | None => None end.
Example C86_compare : exists x, rtc (happens (eq 100)) (boot 0 (replicate 2 empty_db) 2) x /\ map written (peers x) = [W "+OK&+OK&"; W "$-1&$-1&"].
Proof.
  let v := eval vm_compute in (look <$> plain_run) in match v with Some ?a => assert (H : look <$> plain_run = Some a) by (vm_cast_no_check (eq_refl (Some a))) end.
  unfold plain_run in H. destruct (wplay 100 early_acts _) as [x|] eqn:E1; [|discriminate H]. destruct (wplay 100 (Cmd (Beg 1) :: late_acts) x) as [z|] eqn:E3; [|discriminate H]. injection H as _ H _ _ _ _.
  exists z. split; [|rewrite H; vm_compute; reflexivity]. etransitivity; [apply (wplay_ok _ _ _ _ E1)|apply (wplay_ok _ _ _ _ E3)].
Qed.
