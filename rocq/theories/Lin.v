(** The reference for linearizability: clients whose commands are executed one at a time, each in one go. *)
From Verif Require Export Serial WfCmds.

Section WithParams.
Context {P : Setup}.
(** The database, and for each client the replies it has received and the commands it has still to send. *)
Definition turns_state : Type := db * list (list rdata * list command).
(** One client gets its next command executed, alone, at a time [now] when the clock shows a time in [T]. *)
Inductive turn (T : Z -> Prop) : turns_state -> turns_state -> Prop :=
| Turn d cl i acc cmd rest now r d' : cl !! i = Some (acc, cmd :: rest) -> T now -> step now d cmd (Done r d') ->
    turn T (d, cl) (d', <[i := (acc ++ [r], rest)]> cl).
Definition before (cs : list (list command)) : list (list rdata * list command) := map (fun cmds => ([], cmds)) cs.
Definition served (rss : list (list rdata)) : list (list rdata * list command) := map (fun rs => (rs, [])) rss.

(** A property of each of the commands. *)
Definition each (Q : command -> Prop) (cs : list (list command)) : Prop := forall cmds cmd, cmds ∈ cs -> cmd ∈ cmds -> Q cmd.
(** The keys the clients name. *)
Definition names (cs : list (list command)) (key : bytes) : Prop := exists cmds cmd, cmds ∈ cs /\ cmd ∈ cmds /\ key ∈ key_args cmd.

(** ** The commands that are atomic: all but KEYS, SETNX, and DEL, EXISTS, MGET of several keys,
    provided no deadline passes. *)
(** The argument, as a number of seconds, added to the clock lies not before [lim]. *)
Definition far (T : Z -> Prop) (lim : Z) (v : val) : Prop := forall n t, atoi (str v) = Some n -> T t -> lim <= wrap64 (t + n).
(** The same for a number of milliseconds, which the server rounds towards zero to seconds. *)
Definition far_ms (T : Z -> Prop) (lim : Z) (v : val) : Prop := forall n t, atoi (str v) = Some n -> T t -> lim <= wrap64 (t + Z.quot n 1000).
(** The same for the deadlines a command may set: EXPIRE key n, SETEX key n value, and SET
    with an EX or PX option. *)
Definition far_deadlines (T : Z -> Prop) (lim : Z) (cmd : command) : Prop :=
  (cmd_is "expire" cmd = true \/ cmd_is "setex" cmd = true -> forall v, cmd !! 2%nat = Some v -> far T lim v) /\
  (cmd_is "set" cmd = true -> forall i o, (3 <= i)%nat -> cmd !! i = Some o ->
     (to_lower (str o) = B "ex" -> forall v, cmd !! S i = Some v -> is_Some (atoi (str v)) /\ far T lim v) /\
     (to_lower (str o) = B "px" -> forall v, cmd !! S i = Some v -> far_ms T lim v)).
Definition one_step (cmd : command) : Prop :=
  cmd_is "keys" cmd = false /\ cmd_is "setnx" cmd = false /\
  (cmd_is "del" cmd = true \/ cmd_is "exists" cmd = true \/ cmd_is "mget" cmd = true -> (length cmd <= 2)%nat).

(** ** Counters: the command adds [i] to the integer under [k]. *)
Inductive increments (k : bytes) : command -> Z -> Prop :=
| inc_incr n k' : named n "incr" -> str k' = k -> increments k [n; k'] 1
| inc_decr n k' : named n "decr" -> str k' = k -> increments k [n; k'] (-1)
| inc_incrby n k' a i : named n "incrby" -> str k' = k -> atoi (str a) = Some i -> increments k [n; k'; a] i
| inc_decrby n k' a i : named n "decrby" -> str k' = k -> atoi (str a) = Some i -> increments k [n; k'; a] (- i).
Definition sum_all (iss : list (list Z)) : Z := foldr Z.add 0 (concat iss).
(** The integer stored under [k], with no deadline. *)
Definition counts_at (d : db) (k : bytes) (v : Z) : Prop := exists s, dict d !! k = Some (VStr s) /\ atoi (str s) = Some v /\ exps d !! k = None.

(** ** Commands that remove keys (or may leave a container empty and then remove its key). *)
Definition removes (cmd : command) : bool :=
  cmd_is "del" cmd || cmd_is "rename" cmd || cmd_is "hdel" cmd || cmd_is "lpop" cmd || cmd_is "rpop" cmd || cmd_is "lrem" cmd || cmd_is "ltrim" cmd ||
  cmd_is "lmove" cmd || cmd_is "srem" cmd || cmd_is "spop" cmd || cmd_is "smove" cmd || cmd_is "sdiffstore" cmd || cmd_is "sinterstore" cmd || cmd_is "sunionstore" cmd.
(** The command does not name [k], and is not KEYS. *)
Definition leaves_alone (k : bytes) (cmd : command) : Prop := k ∉ key_args cmd /\ cmd_is "keys" cmd = false.
(** SETNX k v. *)
Definition setnx_on (k : bytes) (cmd : command) (v : val) : Prop := exists n k', cmd = [n; k'; v] /\ named n "setnx" /\ str k' = k.
End WithParams.
