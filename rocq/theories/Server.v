(** Model of server/handler.go: the manager of the databases and the connection loop. *)
From Verif Require Export Parser Seq.

Section WithParams.
Context {P : Setup}.

(** Manager (server/handler.go:15-18).  [m.db] is one of the pointers in [m.dbs]: its index. *)
Record manager := mkMgr { cur : nat; mdbs : list db }.

(** NewManager (server/handler.go:20-29); [None]: make with a bad length, or dbs[0] of an empty slice, panics. *)
Definition new_manager (dbnum : Z) : option manager :=
  if make_ok dbnum 8 && (0 <? dbnum) then Some (mkMgr 0 (replicate (Z.to_nat dbnum) empty_db)) else None.

(** "ERR DB index is out of range with maximum %d" *)
Definition out_of_range (n : Z) : rdata :=
  RStr (B "ERR DB index is out of range with maximum " ++ fmt_int n).

(** Select (server/handler.go:103-120). *)
Definition select (m : manager) (cmd : command) : rdata * manager :=
  match cmd with
  | [_; a] =>
      match atoi (str a) with
      | None => (err_int, m)
      | Some i =>
          if (zlen (mdbs m) <=? i) || (i <? 0) then (out_of_range (zlen (mdbs m)), m)
          else (ok, mkMgr (Z.to_nat i) (mdbs m))
      end
  | _ => (err_args, m)
  end.

(** How ExecCommand ends. *)
Inductive mout := MDone (r : rdata) (m : manager) | MCrash (m : manager) | MHang (m : manager).
Definition put_db (m : manager) (d : db) : manager := mkMgr (cur m) (<[cur m := d]> (mdbs m)).

Definition is_select (cmd : command) : bool :=
  match cmd with [] => false | n :: _ => beq (to_lower (str n)) (B "select") end.

(** ExecCommand (server/handler.go:86-101), one command at a time: [T] is the set of clock readings. *)
Inductive mexec (T : Z -> Prop) (m : manager) (cmd : command) : mout -> Prop :=
| mx_select : is_select cmd = true -> mexec T m cmd (MDone (select m cmd).1 (select m cmd).2)
| mx_done d r d' : is_select cmd = false -> mdbs m !! cur m = Some d ->
    runs T d (exec_in_db cmd) (Done r d') -> mexec T m cmd (MDone r (put_db m d'))
| mx_crash d d' : is_select cmd = false -> mdbs m !! cur m = Some d ->
    runs T d (exec_in_db cmd) (Crashes d') -> mexec T m cmd (MCrash (put_db m d'))
| mx_hang d d' : is_select cmd = false -> mdbs m !! cur m = Some d ->
    runs T d (exec_in_db cmd) (Hangs d') -> mexec T m cmd (MHang (put_db m d')).

(** What Handle writes for a reply (server/handler.go:70-82); [None]: a nil element panics. *)
Definition reply_bytes (r : rdata) : option bytes :=
  match r with RNil => enc (RErr (B "unknown error")) | _ => enc r end.

(** How a connection handler stands after the events received so far. *)
Inductive hend := HWaits | HReturns | HCrashes | HHangs.

(** Handle (server/handler.go:31-84) on the values received from the parser: the replies written, in order. *)
Inductive handle : manager -> list event -> list bytes -> hend -> manager -> Prop :=
| h_wait m : handle m [] [] HWaits m
| h_err m e evs : handle m (EvErr e :: evs) [] HReturns m
| h_skip m d evs outs e m' : (forall l, d <> RArr l) -> handle m evs outs e m' ->
    handle m (EvData d :: evs) outs e m'
| h_cmd m l evs cmd r m1 f outs e m' :
    to_command (match l with Some l => l | None => [] end) = Some cmd ->
    mexec (fun _ => True) m cmd (MDone r m1) -> reply_bytes r = Some f ->
    handle m1 evs outs e m' -> handle m (EvData (RArr l) :: evs) (f :: outs) e m'
| h_badcmd m l evs : to_command (match l with Some l => l | None => [] end) = None ->
    handle m (EvData (RArr l) :: evs) [] HCrashes m
| h_crash m l evs cmd m1 : to_command (match l with Some l => l | None => [] end) = Some cmd ->
    mexec (fun _ => True) m cmd (MCrash m1) -> handle m (EvData (RArr l) :: evs) [] HCrashes m1
| h_hang m l evs cmd m1 : to_command (match l with Some l => l | None => [] end) = Some cmd ->
    mexec (fun _ => True) m cmd (MHang m1) -> handle m (EvData (RArr l) :: evs) [] HHangs m1
| h_badreply m l evs cmd r m1 :
    to_command (match l with Some l => l | None => [] end) = Some cmd ->
    mexec (fun _ => True) m cmd (MDone r m1) -> reply_bytes r = None ->
    handle m (EvData (RArr l) :: evs) [] HCrashes m1.
End WithParams.
