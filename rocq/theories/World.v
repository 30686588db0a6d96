(** Model of the whole process: accepting connections, their parsers and handlers, the executors on the shared databases; bytes in, bytes out. *)
From Verif Require Export Pipe Net.

Section WithParams.
Context {P : Setup}.

(** How far a connection has come: the client has not connected; it waits in the listener's queue; the accepting goroutine holds it
    (server/server.go:50-58); its handler has been started (server/server.go:61-65). *)
Inductive stage := Away | Queued | Held | Served.
(** One client's connection: the bytes, the parser and the handler (Pipe.v); the database on which the handler's command is in execution, if it is;
    everything written to the connection. *)
Record peer := mkPeer { stg : stage; lnk : link; runs_on : option nat; written : bytes }.
(** The process: running; ended by a panic; ended by main's return after a signal (server/server.go:67-68, main.go:33-37). *)
Inductive fate := Running | Panicked | Exited.
(** [wsel], [wcores]: the manager and its databases, as in Net.v. [signal]: a signal waits in osSignals (server/server.go:40-41). *)
Record world := mkW { wsel : nat; wcores : list (conf rdata); peers : list peer; signal : bool; now_is : fate }.

(** What clients do, and the operating system. *)
Inductive outside : world -> world -> Prop :=
| O_connect sl cs ps sg i l o w : ps !! i = Some (mkPeer Away l o w) ->
    outside (mkW sl cs ps sg Running) (mkW sl cs (<[i := mkPeer Queued l o w]> ps) sg Running)
| O_client sl cs ps sg i st l l' o w : ps !! i = Some (mkPeer st l o w) -> st <> Away -> Pipe.client l l' ->
    outside (mkW sl cs ps sg Running) (mkW sl cs (<[i := mkPeer st l' o w]> ps) sg Running)
| O_signal sl cs ps sg : outside (mkW sl cs ps sg Running) (mkW sl cs ps true Running).

(** The answer of the handler: in the log of the connection and on the wire. *)
Definition reply_to (l : link) (cmd : command) (r : rdata) : link :=
  mkLink (given l) (unread l) (ended l) (shut l) (par l) HIdle (log l ++ [(cmd, r)]) false.

(** What the goroutines of the process do. *)
Inductive wstep (T : Z -> Prop) : world -> world -> Prop :=
(** The accepting goroutine: listener.Accept, then a send on an unbuffered channel, so it holds one connection at a time (server/server.go:49-58). *)
| W_accept sl cs ps sg i l o w : ps !! i = Some (mkPeer Queued l o w) -> (forall j p, ps !! j = Some p -> stg p <> Held) ->
    wstep T (mkW sl cs ps sg Running) (mkW sl cs (<[i := mkPeer Held l o w]> ps) sg Running)
(** The main goroutine's select: a connection, for which it starts a handler, or the signal (server/server.go:60-70). *)
| W_serve sl cs ps sg i l o w : ps !! i = Some (mkPeer Held l o w) ->
    wstep T (mkW sl cs ps sg Running) (mkW sl cs (<[i := mkPeer Served l o w]> ps) sg Running)
| W_exit sl cs ps : wstep T (mkW sl cs ps true Running) (mkW sl cs ps true Exited)
(** The parser reads and sends, the handler receives and closes (Pipe.v), none of which executes a command. *)
| W_link sl cs ps sg i l l' o w : ps !! i = Some (mkPeer Served l o w) -> lstep l l' -> log l' = log l -> dead l' = false ->
    wstep T (mkW sl cs ps sg Running) (mkW sl cs (<[i := mkPeer Served l' o w]> ps) sg Running)
(** The parser panics; the handler panics on a value that is no command. *)
| W_parser_panic sl cs ps sg i l o w b : ps !! i = Some (mkPeer Served l o w) -> par l = PRead b -> read_next l b = Some PS_crash ->
    wstep T (mkW sl cs ps sg Running) (mkW sl cs ps sg Panicked)
| W_value_panic sl cs ps sg i l o w ev evs nx : ps !! i = Some (mkPeer Served l o w) -> par l = PSend (ev :: evs) nx -> hnd l = HIdle -> receive ev = None ->
    wstep T (mkW sl cs ps sg Running) (mkW sl cs ps sg Panicked)
(** ExecCommand: SELECT, or the start of an executor on the database selected now (server/handler.go:86-101). *)
| W_select sl cs ps sg i l w cmd bs : ps !! i = Some (mkPeer Served l None w) -> hnd l = HExec cmd -> is_select cmd = true ->
    reply_bytes (select (mkMgr sl (map cdb cs)) cmd).1 = Some bs ->
    wstep T (mkW sl cs ps sg Running)
      (mkW (cur (select (mkMgr sl (map cdb cs)) cmd).2) cs
         (<[i := mkPeer Served (reply_to l cmd (select (mkMgr sl (map cdb cs)) cmd).1) None (w ++ bs)]> ps) sg Running)
| W_start sl cs ps sg i l w cmd c : ps !! i = Some (mkPeer Served l None w) -> hnd l = HExec cmd -> cmd <> [] -> is_select cmd = false -> cs !! sl = Some c ->
    wstep T (mkW sl cs ps sg Running)
      (mkW sl (<[sl := mkC (cdb c) (lk c) (<[i := mkT (exec_in_db cmd) false]> (ths c))]> cs) (<[i := mkPeer Served l (Some sl) w]> ps) sg Running)
(** cmd[0] of an empty command panics (server/handler.go:87). *)
| W_empty_panic sl cs ps sg i l w : ps !! i = Some (mkPeer Served l None w) -> hnd l = HExec [] -> wstep T (mkW sl cs ps sg Running) (mkW sl cs ps sg Panicked)
(** One access or lock operation of an executor. *)
| W_run sl cs ps sg j c c' : cs !! j = Some c -> cstep T c c' -> wstep T (mkW sl cs ps sg Running) (mkW sl (<[j := c']> cs) ps sg Running)
(** The executor has returned: the reply is written (server/handler.go:69-82); a reply that cannot be encoded panics. *)
| W_reply sl cs ps sg i l j w cmd c r bs : ps !! i = Some (mkPeer Served l (Some j) w) -> hnd l = HExec cmd -> cs !! j = Some c ->
    ths c !! i = Some (mkT (Ret r) false) -> reply_bytes r = Some bs ->
    wstep T (mkW sl cs ps sg Running) (mkW sl cs (<[i := mkPeer Served (reply_to l cmd r) None (w ++ bs)]> ps) sg Running)
| W_reply_panic sl cs ps sg i l j w cmd c r : ps !! i = Some (mkPeer Served l (Some j) w) -> hnd l = HExec cmd -> cs !! j = Some c ->
    ths c !! i = Some (mkT (Ret r) false) -> reply_bytes r = None -> wstep T (mkW sl cs ps sg Running) (mkW sl cs ps sg Panicked)
(** An executor panics. *)
| W_panic sl cs ps sg j c i b : cs !! j = Some c -> ths c !! i = Some (mkT Crash b) -> wstep T (mkW sl cs ps sg Running) (mkW sl cs ps sg Panicked).

(** The process has started, with [n] clients that may connect some time: the goroutine of a client on a database has nothing to do. *)
Definition boot (sl : nat) (ds : list db) (n : nat) : world :=
  mkW sl (map (fun d => start d (replicate n (Ret rnil))) ds) (replicate n (mkPeer Away opened None [])) false Running.
End WithParams.
