(** The server as its clients see it: the reference machine of SpecRef.v for each database, SELECT, and histories of several clients.
    Nothing here refers to a command's code, to locks, to goroutines or to the parser. *)
From Verif Require Export SpecRef SpecGrammar SpecWorld.

(** One command of a history: by whom, when, the command, its reply. *)
Record deed := mkDeed { who : nat; when : Z; did : command; got : rdata }.
(** The commands of one client with their replies, in order. *)
Definition by_client (i : nat) (h : list deed) : list (command * rdata) :=
  map (fun e => (did e, got e)) (List.filter (fun e => Nat.eqb (who e) i) h).

Section WithParams.
Context {P : Setup}.
(** The database selected (there is one for all clients) and the contents of all databases. *)
Definition store : Type := nat * list keyspace.
Inductive srv_step : store -> Z -> command -> rdata -> store -> Prop :=
| sv_command sl Ms M now n args r M' : ~ named n "select" -> Ms !! sl = Some M -> ref_step now M (n :: args) r M' ->
    srv_step (sl, Ms) now (n :: args) r (sl, <[sl := M']> Ms)
| sv_arity st now n args : named n "select" -> length args <> 1%nat -> srv_step st now (n :: args) err_args st
| sv_number st now n a : named n "select" -> atoi (str a) = None -> srv_step st now [n; a] err_int st
| sv_range sl Ms now n a i : named n "select" -> atoi (str a) = Some i -> ~ 0 <= i < zlen Ms ->
    srv_step (sl, Ms) now [n; a] (RStr (B "ERR DB index is out of range with maximum " ++ fmt_int (zlen Ms))) (sl, Ms)
| sv_select sl Ms now n a i : named n "select" -> atoi (str a) = Some i -> 0 <= i < zlen Ms ->
    srv_step (sl, Ms) now [n; a] (RStr (B "OK")) (Z.to_nat i, Ms).
Inductive srv_run : store -> list deed -> store -> Prop :=
| sr_nil st : srv_run st [] st
| sr_snoc st h st1 e st2 : srv_run st h st1 -> srv_step st1 (when e) (did e) (got e) st2 -> srv_run st (h ++ [e]) st2.
(** [n] databases with nothing in them, the first selected. *)
Definition vacant (n : nat) (st : store) : Prop := st.1 = 0%nat /\ length st.2 = n /\ forall M k, M ∈ st.2 -> M k = None.
(** [l] is what was executed for the client at [p]: all that was answered, and perhaps the command in execution.  The bytes written are
    the encodings of the replies given. *)
Definition up_to_date (p : peer) (l : list (command * rdata)) : Prop :=
  (l = log (lnk p) \/ exists cmd r, hnd (lnk p) = HExec cmd /\ l = log (lnk p) ++ [(cmd, r)]) /\ replied (log (lnk p)) (written p).
(** The contents of the databases in the process, except under keys whose exclusive lock is held. *)
Definition holds (x : world) (st : store) : Prop :=
  wsel x = st.1 /\ length (wcores x) = length st.2 /\
  forall j c M, wcores x !! j = Some c -> st.2 !! j = Some M -> forall key, wr (lk c (lockpos key)) = false -> M key = stored (cdb c) key.
(** The commands in the bytes [s]. *)
Definition asks (s : bytes) (cs : list command) : Prop := exists ks t, reads_as s ks t /\ cs = commands (values None ks).
End WithParams.

(** ** One command at a time *)
Section OneAtATime.
Context {P : Setup}.
(** A command of the client is between its receipt by the handler and its reply; it is in execution. *)
Definition in_hand (p : peer) : Prop := exists cmd, hnd (lnk p) = HExec cmd.
Definition executing (x : world) : Prop := exists i p, peers x !! i = Some p /\ runs_on p <> None.
(** The commands of different clients do not overlap. *)
Definition one_at_a_time (x : world) : Prop := forall i j p q, peers x !! i = Some p -> peers x !! j = Some q -> in_hand p -> in_hand q -> i = j.
(** A step of an execution in which commands do not overlap, at the time the clock shows, or nothing but time passing; the clock does not move while a command
    is in execution, else it may go anywhere. *)
Definition ticks (a b : Z * world) : Prop := (b.2 = a.2 \/ happens (eq a.1) a.2 b.2) /\ one_at_a_time b.2 /\ (executing b.2 -> b.1 = a.1).
End OneAtATime.
