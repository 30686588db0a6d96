(** Model of the running server: many connections, one manager shared by all, several databases. *)
From Verif Require Export Server Conc.

Section WithParams.
Context {P : Setup}.

(** One connection, as its handler goroutine sees it (server/handler.go:31-86): the commands answered, each with its reply;
    the command in execution, with the index of the database it was started on; the commands to come.
    The commands are those the parser delivers (Parser.v, Server.v); a client may send them ahead of the replies. *)
Record conn := mkConn { answered : list (command * rdata); busy : option (command * nat); todo : list command }.
(** The manager of all connections (server/handler.go:15-18, server/server.go:46,65): [sel] is the database [m.db] points to.
    Each database has its own maps and locks (memdb/memdb.go:14-20); goroutine [i] of each database belongs to connection [i],
    and has returned unless the connection's command is in execution there. *)
Record server := mkServer { sel : nat; cores : list (conf rdata); sess : list conn }.

(** One step of one connection's goroutine.  A goroutine does not stop the others; that a panic ends the whole process is not used. *)
Inductive nstep (T : Z -> Prop) : server -> server -> Prop :=
(** SELECT (server/handler.go:92-94,103-120): the length of m.dbs does not change, so the one access is the store to m.db. *)
| N_select sl cs ss i h cmd rest : ss !! i = Some (mkConn h None (cmd :: rest)) -> is_select cmd = true ->
    nstep T (mkServer sl cs ss)
      (mkServer (cur (select (mkMgr sl (map cdb cs)) cmd).2) cs
         (<[i := mkConn (h ++ [(cmd, (select (mkMgr sl (map cdb cs)) cmd).1)]) None rest]> ss))
(** The handler reads m.db and calls the executor (server/handler.go:97). *)
| N_start sl cs ss i h cmd rest c : ss !! i = Some (mkConn h None (cmd :: rest)) -> is_select cmd = false -> cs !! sl = Some c ->
    nstep T (mkServer sl cs ss)
      (mkServer sl (<[sl := mkC (cdb c) (lk c) (<[i := mkT (exec_in_db cmd) false]> (ths c))]> cs)
         (<[i := mkConn h (Some (cmd, sl)) rest]> ss))
(** An access or a lock operation in one of the databases. *)
| N_run sl cs ss j c c' : cs !! j = Some c -> cstep T c c' -> nstep T (mkServer sl cs ss) (mkServer sl (<[j := c']> cs) ss)
(** The executor returns and the handler writes the reply (server/handler.go:70-84). *)
| N_reply sl cs ss i h cmd j rest c r : ss !! i = Some (mkConn h (Some (cmd, j)) rest) -> cs !! j = Some c ->
    ths c !! i = Some (mkT (Ret r) false) ->
    nstep T (mkServer sl cs ss) (mkServer sl cs (<[i := mkConn (h ++ [(cmd, r)]) None rest]> ss)).

(** The connections are open; nothing has been executed yet. *)
Definition serve (sl : nat) (ds : list db) (css : list (list command)) : server :=
  mkServer sl (map (fun d => start d (map (fun _ => Ret rnil) css)) ds) (map (fun cmds => mkConn [] None cmds) css).
End WithParams.
