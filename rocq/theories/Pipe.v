(** Model of one connection with its two goroutines: the parser and the handler, joined by an unbuffered channel, while the client is still sending. *)
From Verif Require Export Parser.

(** The parser goroutine (resp/parser.go:29-124): about to read; in a send on the channel, with the buffer it goes on with after it ([None]: it closes the channel and returns); returned. *)
Inductive pstate := PRead (b : rbuf) | PSend (evs : list event) (next : option rbuf) | PGone.
(** The handler goroutine (server/handler.go:31-84): waiting for the next value; executing a command; closing the connection after an error; returned. *)
Inductive hstate := HIdle | HExec (cmd : command) | HClosing (e : rerr) | HGone (e : rerr).
(** The client's stream ends in order (io.EOF) or by a reset (another error). *)
Inductive stop := Ended | Reset.
(** The connection.  [given]: everything the client has sent so far; [unread]: what the parser has not consumed of it; [ended]: how the client's
    stream has ended, if it has; [shut]: our side has closed the connection; [log]: the commands executed and their replies;
    [dead]: the process has panicked. *)
Record link := mkLink { given : stream; unread : stream; ended : option stop; shut : bool; par : pstate; hnd : hstate;
  log : list (command * rdata); dead : bool }.
Definition opened : link := mkLink [] [] None false (PRead empty_buf) HIdle [] false.

Definition sending (evs : list event) (next : option rbuf) : pstate :=
  match evs, next with
  | [], Some b => PRead b
  | [], None => PGone
  | _, _ => PSend evs next
  end.
(** What has arrived is not enough for the next readline (resp/parser.go:126-150). *)
Definition hits_end (b : rbuf) (st : stream) : bool :=
  match readline st b with RL_err EEof _ | RL_err EUnexpectedEof _ => true | _ => false end.
(** One iteration of the parser's loop; [None]: it waits for more bytes.  A read from a connection that was reset, or closed by
    our side, reports an error other than io.EOF (resp/parser.go:43-46). *)
Definition read_next (x : link) (b : rbuf) : option pstep_res :=
  if hits_end b (unread x) then
    if shut x then Some (PS_more [EvErr ENet] empty_buf [])
    else match ended x with
         | None => None
         | Some Ended => Some (pstep b (unread x))
         | Some Reset => Some (PS_more [EvErr ENet] empty_buf [])
         end
  else Some (pstep b (unread x)).
(** The handler receives a value (server/handler.go:43-67); [None]: it panics. *)
Definition receive (ev : event) : option hstate :=
  match ev with
  | EvErr e => Some (HClosing e)
  | EvData (RArr l) => match to_command (match l with Some l => l | None => [] end) with Some cmd => Some (HExec cmd) | None => None end
  | EvData _ => Some HIdle
  end.

(** What the client does. *)
Inductive client : link -> link -> Prop :=
| K_send g u f p h l piece : f = None -> client (mkLink g u f false p h l false) (mkLink (g ++ [piece]) (u ++ [piece]) f false p h l false)
| K_end g u p h l e : client (mkLink g u None false p h l false) (mkLink g u (Some e) false p h l false).
(** What the two goroutines do. *)
Inductive lstep : link -> link -> Prop :=
| L_read g u f s b h l evs b' rest : read_next (mkLink g u f s (PRead b) h l false) b = Some (PS_more evs b' rest) ->
    lstep (mkLink g u f s (PRead b) h l false) (mkLink g rest f s (sending evs (Some b')) h l false)
| L_eof g u f s b h l evs : read_next (mkLink g u f s (PRead b) h l false) b = Some (PS_close evs) ->
    lstep (mkLink g u f s (PRead b) h l false) (mkLink g [] f s (sending evs None) h l false)
| L_crash g u f s b h l : read_next (mkLink g u f s (PRead b) h l false) b = Some PS_crash ->
    lstep (mkLink g u f s (PRead b) h l false) (mkLink g u f s (PRead b) h l true)
(** The channel is unbuffered (resp/parser.go:24): a send happens together with its receive. *)
| L_pass g u f s ev evs nx l h' : receive ev = Some h' ->
    lstep (mkLink g u f s (PSend (ev :: evs) nx) HIdle l false) (mkLink g u f s (sending evs nx) h' l false)
| L_nil g u f s ev evs nx l : receive ev = None ->
    lstep (mkLink g u f s (PSend (ev :: evs) nx) HIdle l false) (mkLink g u f s (sending evs nx) HIdle l true)
(** ExecCommand and the reply (server/handler.go:66-82): any reply, since other connections share the databases.
    conn.Write is assumed to return.  An empty command panics (server/handler.go:87), and so may any other. *)
| L_exec g u f s p cmd l r : cmd <> [] -> lstep (mkLink g u f s p (HExec cmd) l false) (mkLink g u f s p HIdle (l ++ [(cmd, r)]) false)
| L_panic g u f s p cmd l : lstep (mkLink g u f s p (HExec cmd) l false) (mkLink g u f s p (HExec cmd) l true)
(** conn.Close() (server/handler.go:36-41): the parser keeps what its bufio.Reader holds, and cannot read more. *)
| L_close g u u' u'' f s p e l : concat u = concat u' ++ concat u'' ->
    lstep (mkLink g u f s p (HClosing e) l false) (mkLink g u' f true p (HGone e) l false).
