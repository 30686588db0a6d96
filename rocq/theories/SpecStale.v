(** Specification vocabulary: handlers that see an old value of the selected database. *)
From Verif Require Export SpecWorld SpecWire.

Section WithParams.
Context {P : Setup}.
(** The field Manager.db is written by SELECT and read at the start of every other command, by different goroutines and without a lock (server/handler.go:95-100, 118).
    By the memory model of Go the reader may see an older value than the last one written.  So we let it see any: a handler starts the executor of its command on some database [j], whichever is selected. *)
Inductive misled : world -> world -> Prop :=
| M_start sl cs ps sg i l w cmd j c : ps !! i = Some (mkPeer Served l None w) -> hnd l = HExec cmd -> cmd <> [] -> is_select cmd = false -> cs !! j = Some c ->
    misled (mkW sl cs ps sg Running)
      (mkW sl (<[j := mkC (cdb c) (lk c) (<[i := mkT (exec_in_db cmd) false]> (ths c))]> cs) (<[i := mkPeer Served l (Some j) w]> ps) sg Running).
(** An execution in which this may happen at any time. *)
Definition races (T : Z -> Prop) (x y : world) : Prop := happens T x y \/ misled x y.
(** A client that has sent SELECT and a number, nothing else, and has got its answer OK; its connection is open and idle. *)
Definition selector (k : Z) (p : peer) : Prop :=
  stg p = Served /\ runs_on p = None /\ rests (lnk p) /\ hnd (lnk p) = HIdle /\ ended (lnk p) = None /\
  sends [[Some (B "select"); Some (fmt_int k)]] (concat (given (lnk p))) /\ log (lnk p) = [([Some (B "select"); Some (fmt_int k)], ok)] /\ written p = B "+OK" ++ CRLF.
(** [x'] is [x] with the further clients [qs], for whom nothing is in execution. *)
Definition enlarged (qs : list peer) (x x' : world) : Prop :=
  wsel x' = wsel x /\ peers x' = peers x ++ qs /\ signal x' = signal x /\ now_is x' = now_is x /\
  Forall2 (fun c c' => cdb c' = cdb c /\ lk c' = lk c /\ ths c' = ths c ++ replicate (length qs) (mkT (Ret Prog.rnil) false)) (wcores x) (wcores x').
End WithParams.
