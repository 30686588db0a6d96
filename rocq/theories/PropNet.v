(** The concurrent server: C62, C63. *)
From Verif Require Import NetMain NetSched.

(** * C62  The server is linearizable *)
Section C62.
Context {P : Setup}.
(** Every execution of the server is followed by an execution in which the manager executes one command at a time, each in one go, on the database that is selected then:
    at all times, what has been executed for a connection is what it has been answered (same commands, same replies), or that and the command in execution.
    So each command takes effect, as a whole, between its start and its reply; SELECT is one of the commands, and is seen by all connections.
    For the commands other than KEYS, SETNX, and DEL, EXISTS and MGET of several keys, while no deadline of a key they name passes. *)
Theorem C62_linearizable (T : Z -> Prop) lim sl ds css (f : nat -> server) N : (exists t, T t) -> (forall t, T t -> t <= lim) ->
  each one_step css -> each (far_deadlines T lim) css -> (forall d key t, d ∈ ds -> names css key -> exps d !! key = Some t -> lim <= t) ->
  f 0%nat = serve sl ds css -> (forall n, (n < N)%nat -> nstep T (f n) (f (S n))) ->
  exists g : nat -> alone, g 0%nat = (mkMgr sl ds, map (fun _ => []) css) /\ (forall n, (n < N)%nat -> rtc (mturn T) (g n) (g (S n))) /\
    (forall n, (n <= N)%nat -> caught_up (f n) (g n)) /\ same_contents (f N) (g N).
Proof. exact (server_linearizable T lim sl ds css f N). Qed.
(** Whatever the commands, each connection is answered in the order of its commands, one reply for each. *)
Theorem C62_order T sl ds css x i s : rtc (nstep T) (serve sl ds css) x -> sess x !! i = Some s -> css !! i = Some (all_commands s).
Proof. exact (server_order T sl ds css x i s). Qed.
End C62.
Print Assumptions C62_linearizable.
Print Assumptions C62_order.

(** * C63  The server does not get stuck *)
Section C63.
Context {P : Setup}.
(** When nothing can advance, every connection has all its replies, or a command has died or is in an endless loop. *)
Theorem C63_progress (T : Z -> Prop) now sl ds css x : T now -> (sl < length ds)%nat -> rtc (nstep T) (serve sl ds css) x -> (forall y, ~ nadvance T x y) ->
  finished x \/ exists j c t, cores x !! j = Some c /\ t ∈ ths c /\ (tcode t = Crash \/ tcode t = Hang).
Proof. exact (server_progress T now sl ds css x). Qed.
(** No execution advances forever. *)
Theorem C63_finite T (f : nat -> server) : ~ (forall n, nadvance T (f n) (f (S n))).
Proof. exact (server_finite T f). Qed.
End C63.
Print Assumptions C63_progress.
Print Assumptions C63_finite.

#[local] Existing Instance demo_setup.
Local Open Scope string_scope.
(** Three connections, two databases.  The GET of connection 0 and the INCR of connection 2 start on database 0 before connection 1 selects database 1,
    and are executed after; the reply to GET shows what INCR does still later than the SELECT. *)
Definition trio : list (list (list string)) :=
  [[["get"; "f"]; ["append"; "s"; "!"]]; [["select"; "1"]; ["get"; "f"]; ["set"; "f"; "x"]]; [["incr"; "f"]; ["get"; "f"]]].
Definition two : list db := [demo; empty_db].
Definition trio_acts : list act :=
  [Beg 0; Beg 2; Run 2 1; Sel 1; Beg 1; Run 1 100; Rep 1; Run 2 100; Run 0 100; Rep 0; Rep 2; Beg 1; Run 1 3; Beg 2; Beg 0; Run 0 100; Run 2 100; Run 1 100; Rep 1; Run 2 100; Rep 2; Run 0 100; Rep 0].
Example C62_example :
  each one_step (map (map C) trio) /\ each (far_deadlines (eq 100) 100) (map (map C) trio) /\
  (forall d key t, d ∈ two -> names (map (map C) trio) key -> exps d !! key = Some t -> 100 <= t) /\
  may_answer 100 two trio [[bulk "8"; RInt 1]; [ok; rnil; ok]; [RInt 8; bulk "x"]].
Proof.
  split; [apply one_step_ok; vm_compute; reflexivity|]. split; [apply no_deadline_ok; vm_compute; reflexivity|]. split.
  - intros d key t Hd. apply elem_of_cons in Hd as [->|Hd]; [|apply elem_of_list_singleton in Hd as ->].
    + apply deadlines_ok. vm_compute. reflexivity.
    + apply deadlines_ok. vm_compute. reflexivity.
  - apply (plays trio_acts). vm_compute. reflexivity.
Qed.
(** The same execution ends in a state where nothing can advance. *)
Example C63_example : exists x, rtc (nstep (eq 100)) (serve 0 two (map (map C) trio)) x /\ (forall y, ~ nadvance (eq 100) x y) /\ finished x.
Proof.
  destruct (nplay 100 trio_acts (serve 0 two (map (map C) trio))) as [x|] eqn:E; [|vm_compute in E; discriminate].
  assert (Q : quiet x = true).
  { assert (H : match nplay 100 trio_acts (serve 0 two (map (map C) trio)) with Some x => quiet x | None => false end = true) by (vm_compute; reflexivity). rewrite E in H. exact H. }
  apply nplay_ok in E. exists x. split; [exact E|]. clear E. split; [intros y [Hy _]; exact (quiet_ok _ _ _ Q Hy)|].
  intros i s Hi. apply andb_prop in Q as [Q _]. rewrite forallb_forall in Q. apply elem_of_list_lookup_2, elem_of_list_In, Q in Hi. destruct s as [h [b|] [|cmd r]]; try discriminate. auto.
Qed.
