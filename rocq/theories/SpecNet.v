(** The reference for the concurrent server: the manager executing one command at a time, each in one go. *)
From Verif Require Export Net Lin.

Section WithParams.
Context {P : Setup}.
(** The manager, and for each connection the commands executed for it, with the replies. *)
Definition alone : Type := manager * list (list (command * rdata)).
(** Connection [i] gets a command executed, at a time [now] in [T]. *)
Inductive mturn (T : Z -> Prop) : alone -> alone -> Prop :=
| MTurn m logs i log cmd now r m' : logs !! i = Some log -> T now -> mexec (eq now) m cmd (MDone r m') ->
    mturn T (m, logs) (m', <[i := log ++ [(cmd, r)]]> logs).

(** What has been executed for each connection is what has been answered; or that and the command in execution. *)
Definition caught_up (x : server) (z : alone) : Prop :=
  length z.2 = length (sess x) /\
  forall i s, sess x !! i = Some s -> exists log, z.2 !! i = Some log /\
    (log = answered s \/ exists cmd j r, busy s = Some (cmd, j) /\ log = answered s ++ [(cmd, r)]).
(** The same database is selected; each database has the same contents, except under keys whose exclusive lock is held. *)
Definition same_contents (x : server) (z : alone) : Prop :=
  sel x = cur z.1 /\ length (cores x) = length (mdbs z.1) /\
  forall j c d, cores x !! j = Some c -> mdbs z.1 !! j = Some d ->
    forall key, wr (lk c (lockpos key)) = false -> dict d !! key = dict (cdb c) !! key /\ exps d !! key = exps (cdb c) !! key.
(** The commands of a connection: answered, in execution, to come. *)
Definition all_commands (s : conn) : list command :=
  map fst (answered s) ++ match busy s with Some (cmd, _) => [cmd] | None => [] end ++ todo s.
(** All connections have all their replies. *)
Definition finished (x : server) : Prop := forall i s, sess x !! i = Some s -> busy s = None /\ todo s = [].
(** A step that changes a connection or the code of a goroutine: not the idle step of an endless loop. *)
Definition nadvance (T : Z -> Prop) (x y : server) : Prop := nstep T x y /\ (sess y <> sess x \/ map ths (cores y) <> map ths (cores x)).
End WithParams.
