(** The whole process goes on beside a command that never ends: C84. *)
From Verif Require Import StallSched DemoWire.

(** * C84  Only those behind an endless LINSERT wait *)
Section C84.
Context {P : Setup}.
(** The process runs and none of its goroutines can do anything.  Then every client that has connected has a handler, and all replies to the
    commands executed for it have been written; and its command in execution is held up by an LINSERT in an endless loop,
    on the same database and through a chain of shared locks, each higher than the one before - or all commands in the bytes it has sent have been executed. *)
Theorem C84_served (T : Z -> Prop) now sl ds n x : T now -> (sl < length ds)%nat -> rtc (happens T) (boot sl ds n) x -> now_is x = Running -> (forall y, ~ wadvance T x y) ->
  forall i p, peers x !! i = Some p -> stg p <> Away -> stg p = Served /\ replied (log (lnk p)) (written p) /\
    ((exists cmd j, performs x j i cmd /\ held_up x j 0 cmd) \/
     forall ks t, reads_as (concat (given (lnk p))) ks t -> map fst (log (lnk p)) = commands (values None ks) /\
      (hnd (lnk p) = HIdle /\ ended (lnk p) = None /\ t <> Fatal /\ (forall e, EvErr e ∉ values None ks) \/
       exists e, hnd (lnk p) = HGone e /\ (ended (lnk p) <> None \/ EvErr e ∈ values None ks))).
Proof. exact (stall_served T now sl ds n x). Qed.
(** So commands on a database without an endless LINSERT are not held up. *)
Theorem C84_other_databases x j p cmd : held_up x j p cmd -> exists cmd' i, may_loop cmd' /\ looping x j i cmd'.
Proof. exact (held_up_loops x j p cmd). Qed.
(** Nor are commands that need only locks in [L], if no LINSERT in execution on the database uses a lock in [L] and every command in execution there that
    uses one in [L] uses no higher one outside [L]. *)
Theorem C84_above (T : Z -> Prop) (L : N -> Prop) now sl ds n x i p cmd j : T now -> (sl < length ds)%nat -> rtc (happens T) (boot sl ds n) x -> now_is x = Running -> (forall y, ~ wadvance T x y) ->
  (forall i cmd key, performs x j i cmd -> may_loop cmd -> touched cmd key -> ~ L (lockpos key)) ->
  (forall i cmd k k', performs x j i cmd -> touched cmd k -> touched cmd k' -> L (lockpos k) -> (lockpos k < lockpos k')%N -> L (lockpos k')) ->
  peers x !! i = Some p -> hnd (lnk p) = HExec cmd -> runs_on p = Some j -> ~ may_loop cmd -> ~ (forall key, touched cmd key -> L (lockpos key)).
Proof. exact (stall_above T L now sl ds n x i p cmd j). Qed.
(** The same when clients may be slow to take their replies (C77): a client waits for an endless LINSERT, or for itself, or has been served. *)
Theorem C84_slow (T : Z -> Prop) now sl ds n x os : T now -> (sl < length ds)%nat -> rtc (flows T) (fboot sl ds n) (x, os) -> now_is x = Running -> (forall y, ~ fadvance T (x, os) y) ->
  forall i p o, peers x !! i = Some p -> os !! i = Some o -> stg p <> Away -> stg p = Served /\
    ((exists cmd j, performs x j i cmd /\ held_up x j 0 cmd) \/ waiting o <> [] /\ broken o = false \/
     forall cs, sends cs (concat (given (lnk p))) -> map fst (log (lnk p)) = cs /\ (broken o = false -> replied (log (lnk p)) (arrived o)) /\
       match ended (lnk p) with None => hnd (lnk p) = HIdle | Some _ => exists e, hnd (lnk p) = HGone e end).
Proof. exact (stall_flow T now sl ds n x os). Qed.
(** A client whose command is in an endless loop is never served again, whatever happens. *)
Theorem C84_for_ever T x y j i cmd : rtc (happens T) x y -> looping x j i cmd -> looping y j i cmd.
Proof. exact (looping_for_ever T x y j i cmd). Qed.
End C84.
Print Assumptions C84_served.
Print Assumptions C84_other_databases.
Print Assumptions C84_above.
Print Assumptions C84_slow.
Print Assumptions C84_for_ever.

#[local] Existing Instance demo_setup.
Local Open Scope string_scope.
(** Client 0 sends an LINSERT of the element that it looks for; then client 1 GET of the same key and, unread, a PING; client 2 reads another key and
    selects database 1; client 3 sets the same key there.  Clients 0 and 1 wait for ever, the others are served. *)
Definition gets (i n : nat) : list wact := (replicate n (Go i Read) ++ [Go i Pass; Cmd (Beg i); Cmd (Run i 100)])%list.
Definition four_acts : list wact :=
  [Connect 0; Accept 0; Serve 0; Connect 1; Accept 1; Serve 1; Connect 2; Accept 2; Serve 2; Connect 3; Accept 3; Serve 3;
   Client 0 (Send (W "*5&$7&linsert&$1&l&$5&AFTER&$1&b&$1&b&"))] ++ gets 0 11 ++
  [Client 1 (Send (W "*2&$3&get&$1&l&*1&$4&ping&"))] ++ gets 1 5 ++ [Go 1 Read; Go 1 Read; Go 1 Read] ++
  [Client 2 (Send (W "*2&$3&get&$1&s&*2&$6&SELECT&$1&1&"))] ++ gets 2 5 ++ [Cmd (Rep 2)] ++ [Go 2 Read; Go 2 Read; Go 2 Read; Go 2 Read; Go 2 Read; Go 2 Pass; Cmd (Sel 2)] ++
  [Client 3 (Send (W "*3&$3&set&$1&l&$1&1&"))] ++ gets 3 7 ++ [Cmd (Rep 3)].
Example C84_example : exists x, rtc (happens (eq 100)) (boot 0 [demo; empty_db] 4) x /\ now_is x = Running /\ (forall y, ~ wadvance (eq 100) x y) /\
  map (fun p => (stg p, written p)) (peers x) = [(Served, []); (Served, []); (Served, W "$5&hello&+OK&"); (Served, W "+OK&")] /\
  looping x 0 0 (C ["linsert"; "l"; "AFTER"; "b"; "b"]) /\ performs x 0 1 (C ["get"; "l"]).
Proof.
  run_world 100 four_acts (boot 0 [demo; empty_db] 4) (fun x => (map (fun p => (stg p, written p)) (peers x), now_is x, wstill x, (fun p => (hnd (lnk p), runs_on p)) <$> peers x !! 0%nat, (fun p => (hnd (lnk p), runs_on p)) <$> peers x !! 1%nat,
    match wcores x !! 0%nat with Some c => match ths c !! 0%nat with Some t => match tcode t with Hang => true | _ => false end | _ => false end | _ => false end)).
  match goal with H : exists y, _ |- _ => destruct H as (x & R & [= E1 E2 E3 E4 E5 E6]) end.
  exists x. split; [exact R|]. split; [exact E2|]. split; [intros y; exact (wstill_ok _ _ _ E3)|]. split; [exact E1|].
  destruct (peers x !! 0%nat) as [p0|] eqn:P0; [|discriminate E4]. destruct (peers x !! 1%nat) as [p1|] eqn:P1; [|discriminate E5]. cbn in E4, E5. split; [split|].
  - exists p0. split; [first [exact P0|reflexivity]|]. injection E4 as E4 E4'. split; [exact E4|exact E4'].
  - destruct (wcores x !! 0%nat) as [c|] eqn:Ec; [|discriminate E6]. destruct (ths c !! 0%nat) as [t|] eqn:Et; [|discriminate E6]. exists c, t. split; [reflexivity|]. split; [exact Et|]. destruct (tcode t); try discriminate E6. reflexivity.
  - exists p1. split; [first [exact P1|reflexivity]|]. injection E5 as E5 E5'. split; [exact E5|exact E5'].
Qed.
