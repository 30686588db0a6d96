(** Specification vocabulary for expired keys beside other commands. *)
From Verif Require Export SpecMemory.

(** What a reading command with one key answers when there is nothing under the key. *)
Definition absent_replies : list (string * rdata) :=
  [("get", RBulk None); ("getrange", RBulk (Some [])); ("strlen", RInt 0); ("ttl", RInt (-2)); ("type", RStr (B "none"));
   ("hexists", RInt 0); ("hget", RBulk None); ("hgetall", RArr (Some [])); ("hkeys", RArr (Some [])); ("hlen", RInt 0); ("hmget", RArr (Some [])); ("hvals", RArr (Some []));
   ("hstrlen", RInt 0); ("hrandfield", RBulk None); ("lindex", RBulk None); ("llen", RInt 0); ("lpos", RBulk None); ("lrange", RArr None);
   ("scard", RInt 0); ("sismember", RInt 0); ("smembers", RArr None); ("srandmember", RBulk None)]%string.
(** Errors on the type of the value under the key. *)
Definition value_errors : list bytes := [B "Operation against a key holding the wrong kind of value"; B "the value stored at key is not a string"; B "ERR the value stored at key is not a string"].
(** If the command is one of these on key [k], the reply is that one, or an error on its arguments. *)
Definition as_missing (k : bytes) (cmd : command) (r : rdata) : Prop :=
  forall n key args s a, cmd = n :: key :: args -> str key = k -> In (s, a) absent_replies -> named n s -> r = a \/ exists e, r = RErr e /\ e ∉ value_errors.
