(** Specification vocabulary for C53: DEL, EXISTS and MGET of several keys as commands of one key each. *)
From Verif Require Export Lin.

Section WithParams.
Context {P : Setup}.
(** DEL, EXISTS and MGET are executed key by key; every other command is a single piece. *)
Definition pieces (cmd : command) : list command :=
  match cmd with
  | n :: k :: ks => if cmd_is "del" cmd || cmd_is "exists" cmd || cmd_is "mget" cmd then map (fun k => [n; k]) (k :: ks) else [cmd]
  | _ => [cmd]
  end.
(** The reply to a command, from the replies to its pieces: the same, their sum, or their concatenation. *)
Inductive joins : list rdata -> rdata -> Prop :=
| join_one r : joins [r] r
| join_sum ns : joins (map RInt ns) (RInt (foldr Z.add 0 ns))
| join_list ls : joins (map (fun l => RArr (Some l)) ls) (RArr (Some (concat ls))).
(** The replies to a sequence of commands, from the replies to the pieces of all of them. *)
Inductive joined : list command -> list rdata -> list rdata -> Prop :=
| joined_nil : joined [] [] []
| joined_cons cmd cmds ps r ps' rs : length ps = length (pieces cmd) -> joins ps r -> joined cmds ps' rs -> joined (cmd :: cmds) (ps ++ ps') (r :: rs).
(** All commands but KEYS and SETNX. *)
Definition locked (cmd : command) : Prop := cmd_is "keys" cmd = false /\ cmd_is "setnx" cmd = false.
End WithParams.
