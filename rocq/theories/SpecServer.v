(** Specification vocabulary for the server level. *)
From Verif Require Export Server SpecWire SpecGeneric.

Section WithParams.
Context {P : Setup}.

(** [executes m cs rs m']: the commands [cs] are executed one after the other and all return, with replies [rs]. *)
Inductive executes : manager -> list command -> list rdata -> manager -> Prop :=
| ex_nil m : executes m [] [] m
| ex_cons m c cs r rs m1 m' : mexec (fun _ => True) m c (MDone r m1) -> executes m1 cs rs m' ->
    executes m (c :: cs) (r :: rs) m'.

(** The database selected by a command: SELECT with one argument, an index below [n]. *)
Definition selects (n : Z) (cmd : command) : option nat :=
  match cmd with
  | [_; a] => if is_select cmd then
                match atoi (str a) with
                | Some i => if (0 <=? i) && (i <? n) then Some (Z.to_nat i) else None
                | None => None
                end
              else None
  | _ => None
  end.
(** The commands of [cs] that are addressed to database [i] when database [c] is selected at the start. *)
Fixpoint addressed (n : Z) (c : nat) (cs : list command) (i : nat) : list command :=
  match cs with
  | [] => []
  | cmd :: r =>
      match selects n cmd with
      | Some j => addressed n j r i
      | None => if negb (is_select cmd) && Nat.eqb c i then cmd :: addressed n c r i else addressed n c r i
      end
  end.
(** The commands [cs] are executed on one database. *)
Inductive runs_all : db -> list command -> db -> Prop :=
| ra_nil d : runs_all d [] d
| ra_cons d c cs r d1 d' : runs (fun _ => True) d (exec_in_db c) (Done r d1) -> runs_all d1 cs d' ->
    runs_all d (c :: cs) d'.

(** ** Echoing *)
(** No argument contains CR or LF. *)
Definition crlf_free (cmd : command) : Prop := Forall (fun a => no_crlf (str a)) cmd.
(** The commands that may quote their arguments in an error: SET, EXPIRE, LPOS and unknown names. *)
Definition may_echo (cmd : command) : Prop :=
  match cmd with
  | [] => False
  | n :: _ => named n "set" \/ named n "expire" \/ named n "lpos" \/
      (~ named n "select" /\ forall s a, In (s, a) arity_table -> ~ named n s)
  end.

(** ** SELECT as it should be: every connection has its own selected database *)
Record pmanager := mkPm { pcur : nat -> nat; pdbs : list db }.
(** The command [c] of connection [i]. *)
Inductive pexec (pm : pmanager) (i : nat) (c : command) : rdata -> pmanager -> Prop :=
| px_intro r m' : mexec (fun _ => True) (mkMgr (pcur pm i) (pdbs pm)) c (MDone r m') ->
    pexec pm i c r (mkPm (fun j => if Nat.eqb j i then cur m' else pcur pm j) (mdbs m')).
Inductive pexecutes : pmanager -> list (nat * command) -> list rdata -> pmanager -> Prop :=
| pex_nil pm : pexecutes pm [] [] pm
| pex_cons pm i c cs r rs pm1 pm' : pexec pm i c r pm1 -> pexecutes pm1 cs rs pm' ->
    pexecutes pm ((i, c) :: cs) (r :: rs) pm'.
End WithParams.
