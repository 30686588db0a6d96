(** Goroutines that stand still in a write to the console, or anywhere else: C88. *)
From Verif Require Import MuteSched DemoWire.

(** * C88  A console that takes no more output *)
Section C88.
Context {P : Setup}.
(** The process runs and nobody can do anything but those who stand still, for whatever reason: parsers and handlers of the clients in [XP] and executors of
    the commands of the clients in [XE].  Then for every other client with a handler all replies to the commands executed have been written; and its command in
    execution waits, through a chain of shared locks on the same database, each higher than the one before, for an executor that stands still or for an LINSERT in
    an endless loop - or all commands in the bytes it has sent have been executed. *)
Theorem C88_served (XP XE : nat -> Prop) (T : Z -> Prop) now sl ds n x : T now -> (sl < length ds)%nat -> rtc (happens T) (boot sl ds n) x -> now_is x = Running -> rests_but XP XE T x ->
  forall i p, peers x !! i = Some p -> stg p = Served -> ~ XP i -> replied (log (lnk p)) (written p) /\
    ((exists cmd j, performs x j i cmd /\ behind XE x j 0 i) \/
     forall ks t, reads_as (concat (given (lnk p))) ks t -> map fst (log (lnk p)) = commands (values None ks) /\
      (hnd (lnk p) = HIdle /\ ended (lnk p) = None /\ t <> Fatal /\ (forall e, EvErr e ∉ values None ks) \/
       exists e, hnd (lnk p) = HGone e /\ (ended (lnk p) <> None \/ EvErr e ∈ values None ks))).
Proof. exact (mute_served XP XE T now sl ds n x). Qed.
(** The console takes no more output: those stand still who write to it.  A client who has a handler, has only sent arrays and not ended its connection has all
    its commands answered, or waits so for an LMOVE to the right end of a list or an endless LINSERT in execution. *)
Theorem C88_console (T : Z -> Prop) now sl ds n x : T now -> (sl < length ds)%nat -> rtc (happens T) (boot sl ds n) x -> now_is x = Running -> rests_but (talks x) (prints x) T x ->
  forall i p, peers x !! i = Some p -> stg p = Served -> ended (lnk p) = None -> arrays_only (concat (given (lnk p))) -> replied (log (lnk p)) (written p) /\
    ((exists cmd j, performs x j i cmd /\ behind (prints x) x j 0 i) \/
     hnd (lnk p) = HIdle /\ forall ks t, reads_as (concat (given (lnk p))) ks t -> map fst (log (lnk p)) = commands (values None ks)).
Proof. exact (mute_console T now sl ds n x). Qed.
(** So for a client that sends a pipeline of commands. *)
Theorem C88_pipelines (T : Z -> Prop) now sl ds n x : T now -> (sl < length ds)%nat -> rtc (happens T) (boot sl ds n) x -> now_is x = Running -> rests_but (talks x) (prints x) T x ->
  forall i p cs, peers x !! i = Some p -> stg p = Served -> ended (lnk p) = None -> sends cs (concat (given (lnk p))) ->
    (exists cmd j, performs x j i cmd /\ behind (prints x) x j 0 i) \/ map fst (log (lnk p)) = cs /\ replied (log (lnk p)) (written p) /\ hnd (lnk p) = HIdle.
Proof. exact (mute_pipelines T now sl ds n x). Qed.
(** For such clients nothing is written to the log at any time: neither an error nor another value than an array ever gets from parser to handler. *)
Theorem C88_silent (T : Z -> Prop) sl ds n x i p : rtc (happens T) (boot sl ds n) x -> peers x !! i = Some p -> ended (lnk p) = None -> arrays_only (concat (given (lnk p))) -> silent (lnk p).
Proof. exact (mute_silent T sl ds n x i p). Qed.
(** Only commands on the database of the one that stands still wait for it. *)
Theorem C88_other_databases XE x j p i : behind XE x j p i -> exists cmd i', performs x j i' cmd /\ (XE i' \/ may_loop cmd /\ looping x j i' cmd).
Proof. exact (behind_end XE x j p i). Qed.
(** Nor do commands wait that need only locks in [L], if no command that stands still, and no LINSERT, uses a lock in [L] and every command in execution there that
    uses one in [L] uses no higher one outside [L]. *)
Theorem C88_above (XP XE : nat -> Prop) (T : Z -> Prop) (L : N -> Prop) now sl ds n x j i cmd : T now -> (sl < length ds)%nat -> rtc (happens T) (boot sl ds n) x -> now_is x = Running -> rests_but XP XE T x ->
  (forall i cmd key, performs x j i cmd -> XE i \/ may_loop cmd -> touched cmd key -> ~ L (lockpos key)) ->
  (forall i cmd k k', performs x j i cmd -> touched cmd k -> touched cmd k' -> L (lockpos k) -> (lockpos k < lockpos k')%N -> L (lockpos k')) ->
  performs x j i cmd -> ~ XP i -> ~ XE i -> ~ may_loop cmd -> ~ (forall key, touched cmd key -> L (lockpos key)).
Proof. exact (mute_above XP XE T L now sl ds n x j i cmd). Qed.
(** A process in which nobody at all can do anything is one of those above (C84). *)
Theorem C88_includes XP XE T x : (forall y, ~ wadvance T x y) -> rests_but XP XE T x.
Proof. exact (rests_any XP XE T x). Qed.
End C88.
Print Assumptions C88_served.
Print Assumptions C88_console.
Print Assumptions C88_pipelines.
Print Assumptions C88_silent.
Print Assumptions C88_other_databases.
Print Assumptions C88_above.
Print Assumptions C88_includes.

#[local] Existing Instance demo_setup.
Local Open Scope string_scope.
(** Client 0 moves an element of a list to the right end of another and its executor stands still in fmt.Println, holding both locks; then client 1 reads the
    destination and waits; client 2 reads another key and is served; client 3 is accepted and waits for the main goroutine, which logs the connection; the signal has come
    and the main goroutine takes no notice of it. *)
Definition acts_for (i n : nat) (s : bytes) (k : nat) : list wact := (Client i (Send s) :: replicate n (Go i Read) ++ [Go i Pass; Cmd (Beg i); Cmd (Run i k)])%list.
Definition mute_acts : list wact :=
  [Connect 0; Accept 0; Serve 0; Connect 1; Accept 1; Serve 1; Connect 2; Accept 2; Serve 2; Connect 3; Accept 3; Signal] ++
  acts_for 0 11 (W "*5&$5&lmove&$1&l&$1&m&$4&left&$5&RIGHT&") 12 ++ acts_for 1 7 (W "*3&$6&lindex&$1&m&$1&0&") 100 ++ acts_for 2 5 (W "*2&$3&get&$1&s&") 100 ++ [Cmd (Rep 2)].
Example C88_example : exists x, rtc (happens (eq 100)) (boot 0 [demo; empty_db] 4) x /\ now_is x = Running /\ signal x = true /\ rests_but (talks x) (prints x) (eq 100) x /\
  map (fun p => (stg p, written p)) (peers x) = [(Served, []); (Served, []); (Served, W "$5&hello&"); (Held, [])] /\
  performs x 0 0 (C ["lmove"; "l"; "m"; "left"; "RIGHT"]) /\ performs x 0 1 (C ["lindex"; "m"; "0"]) /\ behind (prints x) x 0 0 1.
Proof.
  run_world 100 mute_acts (boot 0 [demo; empty_db] 4) (fun x => (map (fun p => (stg p, written p)) (peers x), now_is x, signal x, but_f (Nat.eqb 3) (Nat.eqb 0) x,
    (fun p => (hnd (lnk p), runs_on p)) <$> peers x !! 0%nat, (fun p => (hnd (lnk p), runs_on p, stg p, ended (lnk p), concat (given (lnk p)))) <$> peers x !! 1%nat, stg <$> peers x !! 3%nat)).
  match goal with H : exists y, _ |- _ => destruct H as (x & R & [= E1 E2 E3 E4 E5 E6 E7]) end.
  destruct (peers x !! 0%nat) as [p0|] eqn:P0; [|discriminate E5]. destruct (peers x !! 1%nat) as [p1|] eqn:P1; [|discriminate E6]. destruct (peers x !! 3%nat) as [p3|] eqn:P3; [|discriminate E7]. cbn in E5, E6, E7.
  assert (L0 : performs x 0 0 (C ["lmove"; "l"; "m"; "left"; "RIGHT"])). { exists p0. split; [exact P0|]. injection E5 as E5 E5'. split; [exact E5|exact E5']. }
  injection E6 as F1 F2 F3 F4 F5.
  assert (L1 : performs x 0 1 (C ["lindex"; "m"; "0"])). { exists p1. split; [exact P1|]. split; [exact F1|exact F2]. }
  assert (K0 : prints x 0). { exists 0%nat, (C ["lmove"; "l"; "m"; "left"; "RIGHT"]). split; [exact L0|]. eexists _, _, _, _, _. split; [reflexivity|]. split; reflexivity. }
  assert (HB : rests_but (talks x) (prints x) (eq 100) x).
  { apply (but_ok _ _ (Nat.eqb 3) (Nat.eqb 0)); [exact E4| |].
    - intros i Hi. apply Nat.eqb_eq in Hi as <-. exists p3. split; [exact P3|]. left. injection E7 as ->. discriminate.
    - intros i Hi. apply Nat.eqb_eq in Hi as <-. exact K0. }
  exists x. split; [exact R|]. split; [exact E2|]. split; [exact E3|]. split; [exact HB|]. split; [exact E1|]. split; [exact L0|]. split; [exact L1|].
  assert (Hsl : (0 < length [demo; empty_db])%nat) by (cbn; lia).
  destruct (C88_pipelines (eq 100) 100 0 [demo; empty_db] 4 x eq_refl Hsl R E2 HB 1 p1 [C ["lindex"; "m"; "0"]] P1 F3 F4) as [(cmd & j & (p & Hp & _ & Hj) & B)|(_ & _ & H)].
  - rewrite F5. change (sends [C ["lindex"; "m"; "0"]] (W "*3&$6&lindex&$1&m&$1&0&")). sends.
  - assert (p = p1) as -> by congruence. assert (j = 0%nat) as -> by congruence. exact B.
  - rewrite F1 in H. discriminate.
Qed.
