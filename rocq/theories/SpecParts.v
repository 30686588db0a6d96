(** The server as its clients see it when their commands overlap: every command is executed on the database selected when it starts, in one go, except that
    DEL, EXISTS and MGET go key by key, and commands of other clients may come in between. *)
From Verif Require Export SpecWhole SpecSplit.

Section WithParams.
Context {P : Setup}.
(** A command in execution: the command, its database, the replies to those of its pieces that have been executed, the other pieces. *)
Record task := mkTask { asked_for : command; place : nat; parts_done : list rdata; parts_left : list command }.
(** A client: the commands answered, with the replies; the command in execution. *)
Record account := mkAcc { paid : list (command * rdata); current : option task }.
(** The database selected, the contents of all databases; the clients. *)
Definition counter : Type := store * list account.
Definition called (s : string) (cmd : command) : Prop := exists n args, cmd = n :: args /\ named n s.
Inductive serves (T : Z -> Prop) : counter -> counter -> Prop :=
(** SELECT. *)
| sv_selects st cl i l cmd now r st' : cl !! i = Some (mkAcc l None) -> called "select" cmd -> T now -> srv_step st now cmd r st' ->
    serves T (st, cl) (st', <[i := mkAcc (l ++ [(cmd, r)]) None]> cl)
(** Any other command starts, on the database selected. *)
| sv_begins sl Ms cl i l cmd : cl !! i = Some (mkAcc l None) -> ~ called "select" cmd ->
    serves T (sl, Ms, cl) (sl, Ms, <[i := mkAcc l (Some (mkTask cmd sl [] (pieces cmd)))]> cl)
(** The next piece is executed, by the reference of SpecRef.v. *)
| sv_part sl Ms cl i l cmd j rs p rest now M r M' : cl !! i = Some (mkAcc l (Some (mkTask cmd j rs (p :: rest)))) -> T now -> Ms !! j = Some M -> ref_step now M p r M' ->
    serves T (sl, Ms, cl) (sl, <[j := M']> Ms, <[i := mkAcc l (Some (mkTask cmd j (rs ++ [r]) rest))]> cl)
(** All pieces have been executed: the reply. *)
| sv_ends st cl i l cmd j rs r : cl !! i = Some (mkAcc l (Some (mkTask cmd j rs []))) -> joins rs r ->
    serves T (st, cl) (st, <[i := mkAcc (l ++ [(cmd, r)]) None]> cl).
(** [n] empty databases, [k] clients. *)
Definition clean_slate (n k : nat) (z : counter) : Prop := vacant n z.1 /\ z.2 = replicate k (mkAcc [] None).
(** The client's connection is as the account says: the same commands are answered, the bytes written are the encodings of the replies, the same command is in execution on the same database. *)
Definition agrees (p : peer) (a : account) : Prop :=
  paid a = log (lnk p) /\ replied (paid a) (written p) /\
  match runs_on p with
  | None => current a = None
  | Some j => exists cmd rs ps, hnd (lnk p) = HExec cmd /\ current a = Some (mkTask cmd j rs ps)
  end.
End WithParams.
