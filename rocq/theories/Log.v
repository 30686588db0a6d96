(** Model of logger/logger.go: the log file, and calls from any number of goroutines. *)
From Verif Require Export Config.

(** An open file: its bytes and the position of the next write (os.File.Write). *)
Record file := mkFile { content : bytes; offset : nat }.
Definition write_at (f : file) (bs : bytes) : file :=
  mkFile (take (offset f) (content f) ++ bs ++ drop (offset f + length bs) (content f)) (offset f + length bs).
(** os.OpenFile(name, O_RDWR|O_CREATE, 0755) (logger.go:65): neither truncated nor positioned at its end. *)
Definition open_log (old : bytes) : file := mkFile old 0.

(** A call of Debug, Info, Warning, Panic or Error: the level (0 to 4), the caller's file:line (runtime.Caller(2)), the text. *)
Record lcall := mkCall { level : Z; position : bytes; text : bytes }.
(** The prefix set by setPrefix (logger.go:76-84); a caller is always known. *)
Definition prefix_of (c : lcall) : bytes :=
  B "[" ++ nth (Z.to_nat (level c)) level_table [] ++ B "][" ++ position c ++ B "]".

(** Where a goroutine is: before its next call; waiting for logMu, about to set the prefix, about to print, about to unlock. *)
Inductive lstate := LNext | LWait (c : lcall) | LPrefix (c : lcall) | LPrint (c : lcall) | LUnlock.
Record lgo := mkGo { at_ : lstate; todo : list lcall }.
(** The holder of logMu, the prefix of the log.Logger, the file. *)
Record logger := mkLog { mu : option nat; lprefix : bytes; lfile : file; gos : list lgo }.

(** One step, with [conf] the configured level (logger.go:86-137). Println writes the prefix, the time [stamp], the text and a newline with
    one Write (log.Logger.Output); errors of the write are ignored by it and left out here. *)
Inductive logstep (conf : Z) : logger -> logger -> Prop :=
| L_skip m p f gs i c r : gs !! i = Some (mkGo LNext (c :: r)) -> writes (level c) conf = false -> logstep conf (mkLog m p f gs) (mkLog m p f (<[i := mkGo LNext r]> gs))
| L_call m p f gs i c r : gs !! i = Some (mkGo LNext (c :: r)) -> writes (level c) conf = true -> logstep conf (mkLog m p f gs) (mkLog m p f (<[i := mkGo (LWait c) r]> gs))
| L_lock p f gs i c r : gs !! i = Some (mkGo (LWait c) r) -> logstep conf (mkLog None p f gs) (mkLog (Some i) p f (<[i := mkGo (LPrefix c) r]> gs))
| L_prefix m p f gs i c r : gs !! i = Some (mkGo (LPrefix c) r) -> logstep conf (mkLog m p f gs) (mkLog m (prefix_of c) f (<[i := mkGo (LPrint c) r]> gs))
| L_print m p f gs i c r stamp : gs !! i = Some (mkGo (LPrint c) r) ->
    logstep conf (mkLog m p f gs) (mkLog m p (write_at f (p ++ stamp ++ text c ++ [LF])) (<[i := mkGo LUnlock r]> gs))
| L_unlock m p f gs i r : gs !! i = Some (mkGo LUnlock r) -> logstep conf (mkLog m p f gs) (mkLog None p f (<[i := mkGo LNext r]> gs)).
(** logger.Init on a file that contains [old]; the goroutines will make the calls [css]. *)
Definition log_start (old : bytes) (css : list (list lcall)) : logger := mkLog None [] (open_log old) (map (mkGo LNext) css).
