(** Replies on their way out: clients that are slow, silent or gone: C77. *)
From Verif Require Import FlowSched OutsideFlow DemoWire.

(** * C77  A client that does not take its replies is not answered, and harms no other *)
Section C77.
Context {P : Setup}.
(** With conn.Write that waits, takes part of the bytes, or fails, the process does nothing else than with one that takes all at once (so what C67-C69, C75 and C76 say about it holds);
    and what arrives at a client is a prefix of the replies to the commands executed for it: all of them but what still waits, unless the connection broke. *)
Theorem C77_received T sl ds n x : rtc (flows T) (fboot sl ds n) x -> rtc (happens T) (boot sl ds n) x.1 /\
  forall i p o, peers x.1 !! i = Some p -> x.2 !! i = Some o -> exists bs, replied (log (lnk p)) bs /\
    (broken o = false -> bs = arrived o ++ waiting o) /\ (broken o = true -> exists rest, bs = arrived o ++ rest).
Proof. exact (flow_received T sl ds n x). Qed.
(** What waits is part of one reply, the last; its handler is in no command, so it holds no lock. *)
Theorem C77_one_reply T sl ds n x i p o : rtc (flows T) (fboot sl ds n) x -> peers x.1 !! i = Some p -> x.2 !! i = Some o -> waiting o <> [] ->
  runs_on p = None /\ hnd (lnk p) = HIdle /\ exists lg cmd r f w, log (lnk p) = lg ++ [(cmd, r)] /\ reply_bytes r = Some f /\ f = w ++ waiting o.
Proof. exact (flow_one_reply T sl ds n x i p o). Qed.
(** While it waits, no other command of that client is begun, whatever the process does. *)
Theorem C77_waits T sl ds n x os y os' i p o : rtc (flows T) (fboot sl ds n) (x, os) -> fgo T (x, os) (y, os') -> peers x !! i = Some p -> os !! i = Some o -> waiting o <> [] ->
  exists p', peers y !! i = Some p' /\ os' !! i = Some o /\ log (lnk p') = log (lnk p) /\ hnd (lnk p') = hnd (lnk p) /\ runs_on p' = runs_on p.
Proof. exact (fun R => writing_stays T x os y os' i p o (proj2 (flow_inv T sl ds n (x, os) R))). Qed.
(** The process runs and none of its goroutines can do anything.  Then no signal waits, and unless an executor is in an endless loop, every client that has connected has a handler, which
    waits in conn.Write for that client, or has executed all commands the client has sent, and then all replies have arrived if the connection is not broken.
    So no client waits for another one that does not read, and a broken connection does not stop the commands received on it. *)
Theorem C77_others (T : Z -> Prop) now sl ds n x os : T now -> (sl < length ds)%nat -> rtc (flows T) (fboot sl ds n) (x, os) -> now_is x = Running -> (forall y, ~ fadvance T (x, os) y) ->
  signal x = false /\
  (spins x \/ forall i p o, peers x !! i = Some p -> os !! i = Some o -> stg p <> Away -> stg p = Served /\
     (waiting o <> [] /\ broken o = false \/ forall cs, sends cs (concat (given (lnk p))) -> map fst (log (lnk p)) = cs /\ (broken o = false -> replied (log (lnk p)) (arrived o)) /\
       match ended (lnk p) with None => hnd (lnk p) = HIdle | Some _ => exists e, hnd (lnk p) = HGone e end)).
Proof. exact (flow_rests T now sl ds n x os). Qed.
(** And the goroutines do come to rest, unless a client or the operating system does something. *)
Theorem C77_finite T sl ds n (f : nat -> flow) : rtc (flows T) (fboot sl ds n) (f 0%nat) -> ~ (forall n, fadvance T (f n) (f (S n))).
Proof. exact (flow_finite T sl ds n f). Qed.
(** The theorems leave clients and operating system free: while the process runs a client may do what it may in C69_outside, take any portion of the bytes that wait for it, or break the connection. *)
Theorem C77_around x os i o : now_is x = Running -> os !! i = Some o -> broken o = false ->
  (forall y, outside x y -> around (x, os) (y, os)) /\
  (forall w1 w2, waiting o = w1 ++ w2 -> w1 <> [] -> around (x, os) (x, <[i := mkOut w2 (arrived o ++ w1) false]> os)) /\
  around (x, os) (x, <[i := mkOut [] (arrived o) true]> os).
Proof. exact (around_free x os i o). Qed.
End C77.
Print Assumptions C77_received.
Print Assumptions C77_one_reply.
Print Assumptions C77_waits.
Print Assumptions C77_others.
Print Assumptions C77_finite.
Print Assumptions C77_around.

#[local] Existing Instance demo_setup.
Local Open Scope string_scope.
Definition joins_all : list flact := map Does [Connect 0; Accept 0; Serve 0; Connect 1; Accept 1; Serve 1].
(** The parser reads a command in five lines, the handler takes it and executes it. *)
Definition serves (i : nat) : list flact := map Does [Go i Read; Go i Read; Go i Read; Go i Read; Go i Read; Go i Pass; Cmd (Beg i); Cmd (Run i 100); Cmd (Rep i)].
(** Client 0 sends two commands and reads two bytes; client 1 is served meanwhile. *)
Definition slow_acts : list flact :=
  (joins_all ++ Does (Client 0 (Send (W "*2&$4&incr&$1&f&*2&$4&incr&$1&f&"))) :: Does (Client 1 (Send (W "*2&$3&get&$1&f&"))) :: map Does [Go 0 Read; Go 0 Read; Go 0 Read; Go 0 Read; Go 0 Read; Go 0 Pass; Go 0 Read; Go 0 Read; Go 0 Read; Go 0 Read; Go 0 Read; Cmd (Beg 0); Cmd (Run 0 100); Cmd (Rep 0)] ++ Takes 0 2 :: serves 1 ++ [Takes 1 7])%list.
Example C77_example : exists x os, rtc (flows (eq 100)) (fboot 0 [demo] 2) (x, os) /\ now_is x = Running /\ (forall y, ~ fadvance (eq 100) (x, os) y) /\
  map (fun p => map fst (log (lnk p))) (peers x) = [[C ["incr"; "f"]]; [C ["get"; "f"]]] /\
  os = [mkOut CRLF (B ":8") false; mkOut [] (W "$1&8&") false].
Proof.
  run_flow 100 slow_acts (fboot 0 [demo] 2) (fun x => (now_is x.1, map (fun p => map fst (log (lnk p))) (peers x.1), x.2, wquiet (unhandled x.2 x.1))).
  match goal with H : exists y, _ |- _ => destruct H as ([x os] & R & E) end. cbn [fst snd] in E. injection E as E1 E2 E3 E4.
  exists x, os. split; [exact R|]. split; [exact E1|]. split; [intros y; apply quiet_flow; exact E4|]. split; [exact E2|exact E3].
Qed.
(** ** What does not hold *)
(** That a client which can no longer be answered is no longer obeyed: its connection has broken before its second INCR arrives, and that is executed too. *)
Definition incr_f : flact := Does (Client 0 (Send (W "*2&$4&incr&$1&f&"))).
Definition f_now (x : flow) : list entry := map (fun c => view 100 (cdb c) (B "f")) (wcores x.1).
Theorem C77_obeyed_refuted : exists x y, rtc (flows (eq 100)) (fboot 0 [demo] 2) x /\ rtc (flows (eq 100)) x y /\
  x.2 !! 0%nat = Some (mkOut [] [] true) /\ map (fun p => length (given (lnk p))) (peers x.1) = [1; 0]%nat /\
  f_now x = [Some (VStr (Some (B "8")), None)] /\ f_now y = [Some (VStr (Some (B "9")), None)].
Proof.
  pose (later := fun x => f_now <$> flplay 100 (incr_f :: serves 0) x).
  assert (E : (fun x : flow => (x.2 !! 0%nat, map (fun p => length (given (lnk p))) (peers x.1), f_now x, later x)) <$> flplay 100 (joins_all ++ incr_f :: serves 0 ++ [Breaks 0])%list (fboot 0 [demo] 2)
    = Some (Some (mkOut [] [] true), [1; 0]%nat, [Some (VStr (Some (B "8")), None)], Some [Some (VStr (Some (B "9")), None)])) by (vm_compute; reflexivity).
  apply flplays in E as (x & R & E).
  assert (E4 : later x = Some [Some (VStr (Some (B "9")), None)]) by exact (f_equal snd E).
  apply flplays in E4 as (y & R' & E5). exists x, y.
  split; [exact R|]. split; [exact R'|]. split; [exact (f_equal (fun e => e.1.1.1) E)|]. split; [exact (f_equal (fun e => e.1.1.2) E)|]. split; [exact (f_equal (fun e => e.1.2) E)|exact E5].
Qed.
Print Assumptions C77_obeyed_refuted.
