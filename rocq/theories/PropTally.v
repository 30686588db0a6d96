(** Goroutines that see any value of the counters: C87. *)
From Verif Require Import DemoWhole MainStart LinMain DemoWire TallyMain.

(** * C87  The counter of a map has no influence but on KEYS *)
Section C87.
Context {P : Setup} (sys : system).
(** db.dict.count is changed by goroutines that hold the locks of different segments, and read without a lock, so a load may give an old value.
    We let every load give any number, and every command see any selected database ([muddles], SpecTally.v; C86).
    If no client asks for KEYS, every state of such an execution is, but for the counters, a state of an execution with old views of the selected database only ... *)
Theorem C87_counts T sl ds n x : (sl < length ds)%nat -> rtc (muddles T) (boot sl ds n) x -> no_keys_asked x -> exists x', rtc (races T) (boot sl ds n) x' /\ same_but_counts x x'.
Proof. exact (tally_same T sl ds n x). Qed.
(** ... and so, with some more clients who have sent one SELECT each, a state of an execution in which every goroutine sees the last value written to either. *)
Theorem C87_both args fuel c T n x : main sys fuel args = Some (Serves c) -> rtc (muddles T) (boot 0 (replicate (Z.to_nat (dbnum c)) empty_db) n) x -> no_keys_asked x ->
  exists ks qs x' x'', Forall (fun k => 0 <= k < dbnum c) ks /\ Forall2 selector ks qs /\ rtc (happens T) (boot 0 (replicate (Z.to_nat (dbnum c)) empty_db) (n + length ks)) x'' /\ same_but_counts x x' /\ enlarged qs x' x''.
Proof. exact (tally_main sys fuel args c T n x). Qed.
(** So all clients are served: when the goroutines have come to rest, every client that has connected has been answered all its commands ... *)
Theorem C87_served (T : Z -> Prop) now sl ds n x : T now -> (sl < length ds)%nat -> zlen ds <= max_int -> rtc (muddles T) (boot sl ds n) x -> no_keys_asked x -> now_is x = Running -> (forall y, ~ wadvance T x y) ->
  spins x \/ forall i p, peers x !! i = Some p -> stg p <> Away -> stg p = Served /\
    forall ks t, reads_as (concat (given (lnk p))) ks t -> map fst (log (lnk p)) = commands (values None ks) /\ replied (log (lnk p)) (written p) /\
      (hnd (lnk p) = HIdle /\ ended (lnk p) = None /\ t <> Fatal /\ (forall e, EvErr e ∉ values None ks) \/ exists e, hnd (lnk p) = HGone e /\ (ended (lnk p) <> None \/ EvErr e ∈ values None ks)).
Proof. exact (tally_served T now sl ds n x). Qed.
(** ... and they do come to rest, unless a client does something; this even if clients ask for KEYS. *)
Theorem C87_finite T sl ds n (f : nat -> world) : (sl < length ds)%nat -> rtc (muddles T) (boot sl ds n) (f 0%nat) ->
  ~ (forall n, wadvance T (f n) (f (S n)) \/ misled (f n) (f (S n)) \/ miscounts (f n) (f (S n))).
Proof. exact (tally_finite T sl ds n f). Qed.
(** The process panics for no other reason than without data races (C69). *)
Theorem C87_no_panic T sl ds n x : (sl < length ds)%nat -> zlen ds <= max_int -> rtc (muddles T) (boot sl ds n) x ->
  (forall i p, peers x !! i = Some p -> exists ks t, reads_as (concat (given (lnk p))) ks t /\ t <> Fatal /\ forall ev, ev ∈ values None ks -> ~ fatal_value ev) ->
  (forall i p cmd, peers x !! i = Some p -> cmd ∈ handed (lnk p) -> panic_free cmd) -> no_keys_asked x -> now_is x <> Panicked.
Proof. exact (tally_no_panic T sl ds n x). Qed.
(** What is written to a client are RESP frames, one per command executed for it (C67). *)
Theorem C87_frames T sl ds n x : (sl < length ds)%nat -> zlen ds <= max_int -> rtc (muddles T) (boot sl ds n) x -> no_keys_asked x ->
  (forall i p cmd, peers x !! i = Some p -> cmd ∈ handed (lnk p) -> may_echo cmd -> crlf_free cmd) ->
  forall i p, peers x !! i = Some p -> frames (map snd (log (lnk p))) (written p).
Proof. exact (tally_frames T sl ds n x). Qed.
(** And the replies and the contents are those of the reference server of C78, beside which some more clients, [m] of them, have executed one SELECT each. *)
Theorem C87_reference args fuel c (T : Z -> Prop) lim css x : main sys fuel args = Some (Serves c) -> (exists t, T t) -> (forall t, T t -> t <= lim) ->
  rtc (muddles T) (boot 0 (replicate (Z.to_nat (dbnum c)) empty_db) (length css)) x ->
  (forall i p, peers x !! i = Some p -> exists cs, css !! i = Some cs /\ asks (concat (given (lnk p))) cs) ->
  each locked css -> each (far_deadlines T lim) css ->
  exists m z0 z, clean_slate (Z.to_nat (dbnum c)) (length css + m) z0 /\ rtc (serves T) z0 z /\ holds x z.1 /\
    (forall i p, peers x !! i = Some p -> exists a cs rest, z.2 !! i = Some a /\ agrees p a /\
        css !! i = Some cs /\ cs = map fst (paid a) ++ match current a with Some t => [asked_for t] | None => [] end ++ rest) /\
    forall i a, (length css <= i)%nat -> z.2 !! i = Some a -> exists k, 0 <= k < dbnum c /\ a = mkAcc [([Some (B "select"); Some (fmt_int k)], ok)] None.
Proof. exact (tally_parts_main sys fuel args c T lim css x). Qed.
Theorem C87_all_answered args fuel c (T : Z -> Prop) lim css x : main sys fuel args = Some (Serves c) -> (exists t, T t) -> (forall t, T t -> t <= lim) ->
  rtc (muddles T) (boot 0 (replicate (Z.to_nat (dbnum c)) empty_db) (length css)) x -> now_is x = Running -> (forall y, ~ wadvance T x y) -> ~ spins x ->
  (forall i p, peers x !! i = Some p -> stg p <> Away /\ exists cs, css !! i = Some cs /\ asks (concat (given (lnk p))) cs) ->
  each locked css -> each (far_deadlines T lim) css ->
  exists m z0 z, clean_slate (Z.to_nat (dbnum c)) (length css + m) z0 /\ rtc (serves T) z0 z /\ holds x z.1 /\
    (forall i p cs, peers x !! i = Some p -> css !! i = Some cs -> exists a, z.2 !! i = Some a /\ current a = None /\ map fst (paid a) = cs /\ replied (paid a) (written p)) /\
    forall i a, (length css <= i)%nat -> z.2 !! i = Some a -> exists k, 0 <= k < dbnum c /\ a = mkAcc [([Some (B "select"); Some (fmt_int k)], ok)] None.
Proof. exact (tally_answered_main sys fuel args c T lim css x). Qed.
End C87.
Print Assumptions C87_counts.
Print Assumptions C87_both.
Print Assumptions C87_served.
Print Assumptions C87_finite.
Print Assumptions C87_no_panic.
Print Assumptions C87_frames.
Print Assumptions C87_reference.
Print Assumptions C87_all_answered.

#[local] Existing Instance demo_setup.
Local Open Scope string_scope.
Definition any_system : system := mkSys (fun _ => true) (fun _ => None) (fun _ => true) (fun _ => false) (fun _ => true) (fun _ _ => true).
Definition one_db : config := mkConf (B "127.0.0.1") 6379 (B "./") (B "info") 100 1.
(** The goroutine of client [i] on database [j] loads [z] from the counter. *)
Definition miscount (i j : nat) (z : Z) (x : world) : option world :=
  match wcores x !! j, now_is x with
  | Some c, Running =>
      match ths c !! i with
      | Some (mkT (CntLoad k) false) => Some (mkW (wsel x) (<[j := mkC (cdb c) (lk c) (<[i := mkT (k z) false]> (ths c))]> (wcores x)) (peers x) (signal x) Running)
      | _ => None end
  | _, _ => None end.
Lemma miscount_ok i j z x y : miscount i j z x = Some y -> miscounts x y.
Proof.
  unfold miscount. destruct x as [sl cs ps sg nw]. cbn [peers wcores now_is wsel signal]. destruct (cs !! j) as [c|] eqn:E1; try discriminate. destruct nw; try discriminate.
  destruct (ths c !! i) as [[[] []]|] eqn:E2; try discriminate. intros H. apply (inj Some) in H as <-. apply (M_count sl cs ps sg j c i k z); auto.
Qed.
(** A client stores 7 under f and asks for it; in the course of SET the counter is loaded as 41. *)
Definition count_cmds : list (list command) := [[C ["set"; "f"; "7"]; C ["get"; "f"]]].
Definition to_load : list wact :=
  [Connect 0; Accept 0; Serve 0; Client 0 (Send (W "*3&$3&set&$1&f&$1&7&*2&$3&get&$1&f&")); Go 0 Read; Go 0 Read; Go 0 Read; Go 0 Read; Go 0 Read; Go 0 Read; Go 0 Read; Go 0 Pass; Cmd (Beg 0); Cmd (Run 0 5)].
Definition from_load : list wact :=
  [Cmd (Run 0 100); Cmd (Rep 0); Go 0 Read; Go 0 Read; Go 0 Read; Go 0 Read; Go 0 Read; Go 0 Pass; Cmd (Beg 0); Cmd (Run 0 100); Cmd (Rep 0)].
Definition around (z : Z) (before after : list wact) : option world :=
  match wplay 100 before (boot 0 (replicate 1 empty_db) 1) with Some x => match miscount 0 0 z x with Some y => wplay 100 after y | None => None end | None => None end.
Definition look (x : world) := (map (fun p => (concat (given (lnk p)), stg p)) (peers x), map written (peers x), (wsel x, now_is x), wquiet x,
  forallb (fun c => forallb (fun t => match tcode t with Hang => false | _ => true end) (ths c)) (wcores x), map (fun c => (map_to_list (dict (cdb c)), cnt (cdb c))) (wcores x)).
Lemma around_ok z before after v : look <$> around z before after = Some v -> exists x, rtc (muddles (eq 100)) (boot 0 (replicate 1 empty_db) 1) x /\ look x = v.
Proof.
  assert (S : forall x y, rtc (happens (eq 100)) x y -> rtc (muddles (eq 100)) x y) by (induction 1 as [|x y w H _ IH]; [apply rtc_refl|eapply rtc_l; [left; left; exact H|exact IH]]).
  unfold around. destruct (wplay 100 before _) as [x|] eqn:E1; [|discriminate]. destruct (miscount 0 0 z x) as [y|] eqn:E2; [|discriminate]. destruct (wplay 100 after y) as [w|] eqn:E3; [|discriminate]. intros [= <-].
  exists w. split; [|reflexivity]. etransitivity; [apply S, (wplay_ok _ _ _ _ E1)|]. eapply rtc_l; [right; apply (miscount_ok _ _ _ _ _ E2)|]. apply S, (wplay_ok _ _ _ _ E3).
Qed.
Example C87_example : main any_system 9 [B "-dbnum=1"] = Some (Serves one_db) /\ each locked count_cmds /\ each (far_deadlines (eq 100) 100) count_cmds /\
  exists x, rtc (muddles (eq 100)) (boot 0 (replicate (Z.to_nat (dbnum one_db)) empty_db) 1) x /\ now_is x = Running /\ (forall y, ~ wadvance (eq 100) x y) /\ ~ spins x /\
    (forall i p, peers x !! i = Some p -> stg p <> Away /\ exists cs, count_cmds !! i = Some cs /\ asks (concat (given (lnk p))) cs) /\
    map written (peers x) = [W "+OK&$1&7&"] /\ map (fun c => (map_to_list (dict (cdb c)), cnt (cdb c))) (wcores x) = [([(B "f", VStr (Some (B "7")))], 42)].
Proof.
  split; [vm_compute; reflexivity|]. split; [intros cmds cmd H1 H2|].
  { assert (H : forallb (forallb (fun cmd => negb (cmd_is "keys" cmd) && negb (cmd_is "setnx" cmd))) count_cmds = true) by (vm_compute; reflexivity).
    rewrite forallb_forall in H. specialize (H cmds (proj1 (elem_of_list_In _ _) H1)). rewrite forallb_forall in H. specialize (H cmd (proj1 (elem_of_list_In _ _) H2)).
    apply andb_true_iff in H as [Ha Hb]. split; [destruct (cmd_is "keys" cmd)|destruct (cmd_is "setnx" cmd)]; auto; discriminate. }
  split; [apply no_deadline_ok; vm_compute; reflexivity|].
  let v := eval vm_compute in (look <$> around 41 to_load from_load) in match v with Some ?a => assert (H : look <$> around 41 to_load from_load = Some a) by (vm_cast_no_check (eq_refl (Some a))) end.
  apply around_ok in H as (x & R & E). exists x. injection E as E1 E2 E3 E4 E5 E6 E7. split; [exact R|]. split; [exact E4|]. split; [intros y [Hy _]; exact (wquiet_ok _ _ _ E5 Hy)|].
  split; [|split; [|split; [rewrite E2; vm_compute; reflexivity|rewrite E7; vm_compute; reflexivity]]].
  - intros (j & c & t & Hj & Ht & Hh). rewrite forallb_forall in E6. specialize (E6 c (proj1 (elem_of_list_In _ _) (elem_of_list_lookup_2 _ _ _ Hj))). rewrite forallb_forall in E6.
    specialize (E6 t (proj1 (elem_of_list_In _ _) Ht)). rewrite Hh in E6. discriminate.
  - intros i p Hp. apply (in_peers _ _ _ _ _ E1) in Hp. destruct i as [|i]; [|discriminate]; injection Hp as <- <-; (split; [discriminate|]); eexists; (split; [reflexivity|]); apply asks_parse; vm_compute; reflexivity.
Qed.
(** KEYS is different: a single client stores 7 under f, gets its OK and asks for all keys; if the counter is loaded as 0, the slice is too short and the process panics (memdb/concurrentMap.go:100-105). *)
Definition to_keys : list wact :=
  [Connect 0; Accept 0; Serve 0; Client 0 (Send (W "*3&$3&set&$1&f&$1&7&*2&$4&keys&$1&*&")); Go 0 Read; Go 0 Read; Go 0 Read; Go 0 Read; Go 0 Read; Go 0 Read; Go 0 Read; Go 0 Pass; Cmd (Beg 0); Cmd (Run 0 100);
   Cmd (Rep 0); Go 0 Read; Go 0 Read; Go 0 Read; Go 0 Read; Go 0 Read; Go 0 Pass; Cmd (Beg 0)].
Definition from_keys : list wact := [Cmd (Run 0 100); Die 0].
Example C87_keys_refuted : exists x, rtc (muddles (eq 100)) (boot 0 (replicate 1 empty_db) 1) x /\ map written (peers x) = [W "+OK&"] /\ now_is x = Panicked.
Proof.
  let v := eval vm_compute in (look <$> around 0 to_keys from_keys) in match v with Some ?a => assert (H : look <$> around 0 to_keys from_keys = Some a) by (vm_cast_no_check (eq_refl (Some a))) end.
  apply around_ok in H as (x & R & E). exists x. injection E as _ E2 _ E4 _ _ _. split; [exact R|]. split; [rewrite E2; vm_compute; reflexivity|exact E4].
Qed.
