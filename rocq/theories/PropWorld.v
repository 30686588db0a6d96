(** The whole process, from the bytes of the clients to the bytes of the replies: C67-C69. *)
From Verif Require Import WorldPanic WorldSched Outside DemoWire.

(** * C67  What the clients see is one after the other *)
Section C67.
Context {P : Setup}.
(** An execution [f 0], ..., [f N] of the process, in which the bytes that client [i] has sent so far are a prefix of an encoding of its commands [css !! i].
    There is an execution [g] of a server that executes one command at a time, without interruption, that keeps pace with it:
    at every time [n] the commands executed for client [i] are the first of its own, each by the time it has been received,
    and the bytes written to it are exactly the replies to them, but for the command in execution; in the end the databases are the same.
    (The commands are those with a single point of effect and the deadlines are far away, as in C62.) *)
Theorem C67_linearizable (T : Z -> Prop) lim sl ds css (f : nat -> world) N : (exists t, T t) -> (forall t, T t -> t <= lim) ->
  each one_step css -> each (far_deadlines T lim) css -> (forall d key t, d ∈ ds -> names css key -> exps d !! key = Some t -> lim <= t) ->
  f 0%nat = boot sl ds (length css) -> (forall n, (n < N)%nat -> happens T (f n) (f (S n))) ->
  (forall i p, peers (f N) !! i = Some p -> exists cs q, css !! i = Some cs /\ sends cs (concat (given (lnk p)) ++ q)) ->
  exists g : nat -> alone, g 0%nat = (mkMgr sl ds, map (fun _ => []) css) /\ (forall n, (n < N)%nat -> rtc (mturn T) (g n) (g (S n))) /\
    (forall n i p, (n <= N)%nat -> peers (f n) !! i = Some p -> exists log cs rest, (g n).2 !! i = Some log /\ css !! i = Some cs /\ cs = map fst log ++ rest /\ written_up p log) /\
    same_contents (mkServer (wsel (f N)) (wcores (f N)) []) (g N).
Proof. exact (world_linearizable T lim sl ds css f N). Qed.
(** If no command that may be quoted in an error contains CR or LF, then everything written to a client is a sequence of RESP frames, one per command executed for it.
    This holds for all commands and deadlines. *)
Theorem C67_frames T sl ds n x : rtc (happens T) (boot sl ds n) x ->
  (forall i p cmd, peers x !! i = Some p -> cmd ∈ handed (lnk p) -> may_echo cmd -> crlf_free cmd) ->
  forall i p, peers x !! i = Some p -> frames (map snd (log (lnk p))) (written p).
Proof. exact (world_frames T sl ds n x). Qed.
End C67.
Print Assumptions C67_linearizable.
Print Assumptions C67_frames.

(** * C68  Every client is served *)
Section C68.
Context {P : Setup}.
(** The process runs and none of its goroutines can do anything.  Then no signal waits, and unless an executor is in an endless loop, every client that has
    connected has been accepted and has a handler, and if it has sent the commands [cs], they have all been executed and answered. *)
Theorem C68_served (T : Z -> Prop) now sl ds n x : T now -> (sl < length ds)%nat -> rtc (happens T) (boot sl ds n) x -> now_is x = Running -> (forall y, ~ wadvance T x y) ->
  signal x = false /\
  (spins x \/ forall i p, peers x !! i = Some p -> stg p <> Away -> stg p = Served /\
     forall cs, sends cs (concat (given (lnk p))) -> map fst (log (lnk p)) = cs /\ replied (log (lnk p)) (written p) /\
       match ended (lnk p) with None => hnd (lnk p) = HIdle | Some _ => exists e, hnd (lnk p) = HGone e end).
Proof. exact (world_rests T now sl ds n x). Qed.
(** Without LINSERT no executor is ever in an endless loop. *)
Theorem C68_no_spin T sl ds n x : (sl < length ds)%nat -> rtc (happens T) (boot sl ds n) x ->
  (forall i p cmd, peers x !! i = Some p -> cmd ∈ handed (lnk p) -> ~ may_loop cmd) -> ~ spins x.
Proof. exact (world_no_spin T sl ds n x). Qed.
(** And the goroutines do come to rest, unless a client does something. *)
Theorem C68_finite T sl ds n (f : nat -> world) : rtc (happens T) (boot sl ds n) (f 0%nat) -> ~ (forall n, wadvance T (f n) (f (S n))).
Proof. exact (world_finite T sl ds n f). Qed.
End C68.
Print Assumptions C68_served.
Print Assumptions C68_no_spin.
Print Assumptions C68_finite.

(** * C69  How the process ends *)
Section C69.
Context {P : Setup}.
(** Every client sends (so far) a prefix of an encoding of commands, and the commands received so far are panic-free: the process has not panicked. *)
Theorem C69_no_panic T sl ds n x : (sl < length ds)%nat -> rtc (happens T) (boot sl ds n) x ->
  (forall i p, peers x !! i = Some p -> exists cs q, sends cs (concat (given (lnk p)) ++ q)) ->
  (forall i p cmd, peers x !! i = Some p -> cmd ∈ handed (lnk p) -> panic_free cmd) -> now_is x <> Panicked.
Proof. exact (world_no_panic T sl ds n x). Qed.
(** It exits only after a signal has arrived. *)
Theorem C69_exit T sl ds n x : rtc (happens T) (boot sl ds n) x -> now_is x = Exited ->
  exists y z, rtc (happens T) (boot sl ds n) y /\ notified y z /\ rtc (happens T) z x.
Proof. exact (world_exit T sl ds n x). Qed.
(** After a signal it does not come to rest before it has ended, whatever clients and executors do. *)
Theorem C69_stops T y z x : notified y z -> rtc (happens T) z x -> (forall u, ~ wadvance T x u) -> now_is x <> Running.
Proof. exact (world_stops T y z x). Qed.
(** When it has ended nothing happens any more. *)
Theorem C69_final T x y : now_is x <> Running -> ~ happens T x y.
Proof. exact (world_final T x y). Qed.
(** While it runs the theorems leave clients and operating system free: a client may connect; one that has connected may send any bytes, or end its stream
    in either way, unless it has done so or the process has closed the connection; and a signal may come. *)
Theorem C69_outside (T : Z -> Prop) sl ds n x i p : rtc (happens T) (boot sl ds n) x -> now_is x = Running -> peers x !! i = Some p ->
  (stg p = Away -> exists y q, outside x y /\ peers y !! i = Some q /\ stg q = Queued /\ lnk q = lnk p) /\
  (stg p <> Away -> ended (lnk p) = None -> shut (lnk p) = false ->
    (forall piece, exists y q, outside x y /\ peers y !! i = Some q /\ given (lnk q) = given (lnk p) ++ [piece] /\ ended (lnk q) = None) /\
    (forall e, exists y q, outside x y /\ peers y !! i = Some q /\ given (lnk q) = given (lnk p) /\ ended (lnk q) = Some e)) /\
  exists y, outside x y /\ signal y = true /\ peers y = peers x.
Proof. exact (outside_free T sl ds n x i p). Qed.
End C69.
Print Assumptions C69_no_panic.
Print Assumptions C69_exit.
Print Assumptions C69_stops.
Print Assumptions C69_final.
Print Assumptions C69_outside.

#[local] Existing Instance demo_setup.
Local Open Scope string_scope.
Definition both : list db := [demo; empty_db].
Definition pair_cmds : list (list command) := [[C ["get"; "f"]]; [C ["incr"; "f"]; C ["get"; "f"]]].
(** Client 0's GET shows what client 1's INCR does, before client 1 has its reply; client 1's second command has arrived in part. *)
Definition pair_acts : list wact :=
  [Connect 0; Connect 1; Client 0 (Send (W "*2&$3&get&$1&f&")); Accept 1; Serve 1; Client 1 (Send (W "*2&$4&incr&$1&f&*2&$3&g")); Accept 0; Serve 0;
   Go 0 Read; Go 0 Read; Go 0 Read; Go 0 Read; Go 0 Read; Go 0 Pass; Cmd (Beg 0); Go 1 Read; Go 1 Read; Go 1 Read; Go 1 Read; Go 1 Read; Go 1 Pass;
   Cmd (Beg 1); Cmd (Run 1 100); Cmd (Run 0 100); Cmd (Rep 0)].
Example C67_example :
  each one_step pair_cmds /\ each (far_deadlines (eq 100) 100) pair_cmds /\
  (forall d key t, d ∈ both -> names pair_cmds key -> exps d !! key = Some t -> 100 <= t) /\
  exists x, rtc (happens (eq 100)) (boot 0 both 2) x /\
    (forall i p, peers x !! i = Some p -> exists cs q, pair_cmds !! i = Some cs /\ sends cs (concat (given (lnk p)) ++ q)%list) /\
    map written (peers x) = [W "$1&8&"; []].
Proof.
  split; [apply one_step_ok; vm_compute; reflexivity|]. split; [apply no_deadline_ok; vm_compute; reflexivity|]. split.
  - intros d key t Hd. apply elem_of_cons in Hd as [->|Hd]; [|apply elem_of_list_singleton in Hd as ->]; revert key t; apply deadlines_ok; vm_compute; reflexivity.
  - run_world 100 pair_acts (boot 0 both 2) (fun x => (map (fun p => concat (given (lnk p))) (peers x), map written (peers x))). match goal with H : exists y, _ |- _ => destruct H as (x & R & [= E1 E2]) end.
    exists x. split; [exact R|]. split; [|rewrite E2; vm_compute; reflexivity].
    intros i p Hp. apply (in_peers _ _ _ _ _ E1) in Hp. destruct i as [|[|i]]; [| |discriminate]; injection Hp as <-.
    + exists [C ["get"; "f"]], []. split; [reflexivity|]. sends.
    + exists [C ["incr"; "f"]; C ["get"; "f"]], (W "et&$1&f&"). split; [reflexivity|]. sends.
Qed.
(** The rest of client 1's second command arrives, everything is executed, and client 0 hangs up. *)
Definition rest_acts : list wact :=
  [Cmd (Rep 1); Client 1 (Send (W "et&$1&f&")); Go 1 Read; Go 1 Read; Go 1 Read; Go 1 Read; Go 1 Read; Go 1 Pass; Cmd (Beg 1); Cmd (Run 1 100); Cmd (Rep 1);
   Client 0 (End Ended); Go 0 Read; Go 0 Pass; Go 0 (Close 0)].
Example C68_example : exists x, rtc (happens (eq 100)) (boot 0 both 2) x /\ now_is x = Running /\ (forall y, ~ wadvance (eq 100) x y) /\
  (forall i p, peers x !! i = Some p -> exists cs, pair_cmds !! i = Some cs /\ sends cs (concat (given (lnk p))) /\ map fst (log (lnk p)) = cs) /\
  map written (peers x) = [W "$1&8&"; W ":8&$1&8&"].
Proof.
  run_world 100 (pair_acts ++ rest_acts)%list (boot 0 both 2) (fun x => (map (fun p => (concat (given (lnk p)), map fst (log (lnk p)))) (peers x), map written (peers x), now_is x, wquiet x)). match goal with H : exists y, _ |- _ => destruct H as (x & R & [= E1 E2 E3 E4]) end.
  exists x. split; [exact R|]. split; [exact E3|]. split; [intros y [Hy _]; exact (wquiet_ok _ _ _ E4 Hy)|]. split; [|rewrite E2; vm_compute; reflexivity].
  intros i p Hp. apply (in_peers _ _ _ _ _ E1) in Hp. destruct i as [|[|i]]; [| |discriminate]; injection Hp as <- <-.
  - exists [C ["get"; "f"]]. split; [reflexivity|]. split; [sends|reflexivity].
  - exists [C ["incr"; "f"]; C ["get"; "f"]]. split; [reflexivity|]. split; [sends|reflexivity].
Qed.
(** Both clients send panic-free commands, a signal arrives while client 1's INCR is in execution and the process exits after the reply. *)
Example C69_example : exists x, rtc (happens (eq 100)) (boot 0 both 2) x /\ now_is x = Exited /\ signal x = true /\
  (forall i p, peers x !! i = Some p -> exists cs q, sends cs (concat (given (lnk p)) ++ q)%list) /\
  (forall i p cmd, peers x !! i = Some p -> cmd ∈ handed (lnk p) -> panic_free cmd).
Proof.
  run_world 100 (pair_acts ++ [Signal; Cmd (Rep 1); Exit])%list (boot 0 both 2) (fun x => (map (fun p => (concat (given (lnk p)), handed (lnk p))) (peers x), now_is x, signal x)). match goal with H : exists y, _ |- _ => destruct H as (x & R & [= E1 E2 E3]) end.
  exists x. split; [exact R|]. split; [exact E2|]. split; [exact E3|]. split.
  - intros i p Hp. apply (in_peers _ _ _ _ _ E1) in Hp. destruct i as [|[|i]]; [| |discriminate]; injection Hp as <- _.
    + exists [C ["get"; "f"]], []. sends.
    + exists [C ["incr"; "f"]; C ["get"; "f"]], (W "et&$1&f&"). sends.
  - intros i p cmd Hp Hc. apply (in_peers _ _ _ _ _ E1) in Hp. destruct i as [|[|i]]; [| |discriminate]; injection Hp as _ Hp; rewrite <- Hp in Hc; apply elem_of_list_singleton in Hc as ->;
      left; intros s Hs Hn; cbn [In panicking] in Hs; vm_compute in Hn; repeat destruct Hs as [<-|Hs]; try discriminate Hn; destruct Hs.
Qed.
(** In the same execution: a signal arrives, and the process has ended when nothing can be done any more. *)
Example C69_stops_example : exists y z x, rtc (happens (eq 100)) (boot 0 both 2) y /\ notified y z /\ rtc (happens (eq 100)) z x /\ (forall u, ~ wadvance (eq 100) x u) /\ now_is x = Exited.
Proof.
  destruct C69_example as (x & R & E & _). destruct (C69_exit _ _ _ _ _ R E) as (y & z & R1 & N & R2). exists y, z, x. split; [exact R1|]. split; [exact N|]. split; [exact R2|].
  split; [|exact E]. intros u [St _]. apply (C69_final (eq 100) x u); [congruence|right; exact St].
Qed.

(** ** What does not hold *)
(** A clean exit does not wait for the commands in execution (the context with the timeout of three seconds made on a signal is thrown away, server/server.go:24-34):
    client 1's INCR has taken effect and is never answered, although client 1 has sent nothing but that command. *)
Theorem C69_exit_answers_refuted : exists x, rtc (happens (eq 100)) (boot 0 both 2) x /\ now_is x = Exited /\
  map (fun p => (hnd (lnk p), written p)) (peers x) = [(HIdle, []); (HExec (C ["incr"; "f"]), [])] /\
  map (fun c => view 100 (cdb c) (B "f")) (wcores x) = [Some (VStr (Some (B "8")), None); None].
Proof.
  run_world 100 [Connect 1; Accept 1; Serve 1; Client 1 (Send (W "*2&$4&incr&$1&f&")); Go 1 Read; Go 1 Read; Go 1 Read; Go 1 Read; Go 1 Read; Go 1 Pass; Cmd (Beg 1); Cmd (Run 1 100); Signal; Exit] (boot 0 both 2) (fun x => (map (fun p => (hnd (lnk p), written p)) (peers x), map (fun c => view 100 (cdb c) (B "f")) (wcores x), now_is x)). match goal with H : exists y, _ |- _ => destruct H as (x & R & [= E1 E2 E3]) end.
  exists x. split; [exact R|]. split; [exact E3|]. split; [etransitivity; [exact E1|]|etransitivity; [exact E2|]]; vm_compute; reflexivity.
Qed.
(** One client's input ends the service of all: client 0 sends CR LF, and client 1's INCR is never answered. *)
Theorem C69_isolation_refuted : exists x, rtc (happens (eq 100)) (boot 0 both 2) x /\ now_is x = Panicked /\
  map (fun p => (concat (given (lnk p)), hnd (lnk p), written p)) (peers x) = [(W "&", HIdle, []); (W "*2&$4&incr&$1&f&", HExec (C ["incr"; "f"]), [])].
Proof.
  run_world 100 [Connect 1; Accept 1; Serve 1; Client 1 (Send (W "*2&$4&incr&$1&f&")); Connect 0; Go 1 Read; Go 1 Read; Go 1 Read; Go 1 Read; Go 1 Read; Go 1 Pass; Cmd (Beg 1); Cmd (Run 1 2);
      Accept 0; Client 0 (Send (W "&")); Serve 0; Die 0] (boot 0 both 2) (fun x => (map (fun p => (concat (given (lnk p)), hnd (lnk p), written p)) (peers x), now_is x)). match goal with H : exists y, _ |- _ => destruct H as (x & R & [= E1 E2]) end.
  exists x. split; [exact R|]. split; [exact E2|]. etransitivity; [exact E1|]. vm_compute. reflexivity.
Qed.
Print Assumptions C69_exit_answers_refuted.
Print Assumptions C69_isolation_refuted.
