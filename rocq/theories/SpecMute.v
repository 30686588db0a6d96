(** Goroutines that stand still wherever they are, as in a write to a console that takes no more output: who has to wait for them. *)
From Verif Require Export SpecStall SpecGrammar.

Section WithParams.
Context {P : Setup}.
(** Of the goroutines none can do anything but those that stand still, which are: parser and handler of the clients in [XP], who may also be still waiting
    for a handler; and the executors of the commands of the clients in [XE].  Of the main goroutine it is left open whether it takes notice of a signal. *)
Definition rests_but (XP XE : nat -> Prop) (T : Z -> Prop) (x : world) : Prop := forall y, wstep T x y ->
  now_is y <> Panicked /\
  (forall i, peers y !! i <> peers x !! i -> XP i) /\
  (peers y = peers x -> forall j c c' i, wcores x !! j = Some c -> wcores y !! j = Some c' -> ths c' !! i <> ths c !! i -> XE i).
(** The command in execution on database [j] for client [i] waits for one that stands still, or for an LINSERT in an endless loop, through locks from [p] upwards:
    it is that command; or it shares one of these locks with the command of another client there, and that one waits so through the locks above this one. *)
Inductive behind (XE : nat -> Prop) (x : world) (j : nat) : N -> nat -> Prop :=
| behind_itself p i cmd : performs x j i cmd -> XE i \/ may_loop cmd /\ looping x j i cmd -> behind XE x j p i
| behind_next p i cmd key i' cmd' key' : performs x j i cmd -> performs x j i' cmd' -> touched cmd key -> touched cmd' key' ->
    lockpos key = lockpos key' -> (p <= lockpos key)%N -> behind XE x j (N.succ (lockpos key)) i' -> behind XE x j p i.

(** The writes to the console.  The main goroutine logs each connection before it starts the handler (server/server.go:64).  The handler logs an error from the
    channel, a value that is no array, and the end of the connection (server/handler.go:39,48,50,57,64), the parser an error of the stream (resp/parser.go:43,60,86,105).
    (A failed conn.Write, server/handler.go:82, is in Flow.v.)  LMOVE prints the destination with fmt.Println, holding the locks of both keys,
    if the destination is the right end (memdb/list.go:196). *)
(** All values in the bytes, as far as they go, are arrays. *)
Definition arrays_only (s : bytes) : Prop := exists ks t, reads_as s ks t /\ t <> Fatal /\ forall ev, ev ∈ values None ks -> exists l, ev = EvData (RArr l).
(** Client [i] has no handler yet, or has sent something else than arrays, or has ended its connection. *)
Definition talks (x : world) (i : nat) : Prop :=
  exists p, peers x !! i = Some p /\
    (stg p <> Served \/ ended (lnk p) <> None \/
     ~ arrays_only (concat (given (lnk p)))).
(** Nothing is under way between parser and handler, nor has been received, that makes them write to the log. *)
Definition silent (l : link) : Prop :=
  match hnd l with
  | HIdle | HExec _ => match par l with PRead _ => True | PSend evs _ => Forall (fun ev => exists a, ev = EvData (RArr a)) evs | PGone => False end
  | _ => False end.
(** An LMOVE to the right end is in execution for client [i]. *)
Definition to_right (cmd : command) : Prop :=
  exists n s d a b, cmd = [n; s; d; a; b] /\ to_lower (str n) = B "lmove" /\ to_lower (str b) = B "right".
Definition prints (x : world) (i : nat) : Prop := exists j cmd, performs x j i cmd /\ to_right cmd.
End WithParams.
