(** Model of the command table: memdb/command.go:5-18, filled by main.go:12-18 through
    the Register* functions (keys.go:249-259, strings.go:627-643, hash.go:577-593, list.go:848-864, set.go:798-813). *)
From Verif Require Export CmdKeys CmdStrings CmdHash CmdList CmdSet.

Section WithParams.
Context {P : Setup}.

Definition cmd_table : list (bytes * (command -> prog rdata)) := [
  (B "ping", ping_keys); (B "del", del_key); (B "exists", exists_key); (B "keys", keys_key);
  (B "expire", expire_key); (B "persist", persist_key); (B "ttl", ttl_key);
  (B "rename", rename_key); (B "type", type_key);
  (B "set", set_string); (B "get", get_string); (B "getrange", getrange_string);
  (B "setrange", setrange_string); (B "mget", mget_string); (B "mset", mset_string);
  (B "setex", setex_string); (B "setnx", setnx_string); (B "strlen", strlen_string);
  (B "incr", incr_string); (B "incrby", incrby_string); (B "decr", decr_string);
  (B "decrby", decrby_string); (B "incrbyfloat", incrbyfloat_string); (B "append", append_string);
  (B "hdel", hdel_hash); (B "hexists", hexists_hash); (B "hget", hget_hash);
  (B "hgetall", hgetall_hash); (B "hincrby", hincrby_hash); (B "hincrbyfloat", hincrbyfloat_hash);
  (B "hkeys", hkeys_hash); (B "hlen", hlen_hash); (B "hmget", hmget_hash); (B "hmset", hmset_hash);
  (B "hset", hset_hash); (B "hsetnx", hsetnx_hash); (B "hvals", hvals_hash);
  (B "hstrlen", hstrlen_hash); (B "hrandfield", hrandfield_hash);
  (B "lindex", lindex_list); (B "linsert", linsert_list); (B "llen", llen_list);
  (B "lmove", lmove_list); (B "lpop", lpop_list); (B "lpos", lpos_list); (B "lpush", lpush_list);
  (B "lpushx", lpushx_list); (B "lrange", lrange_list); (B "lrem", lrem_list);
  (B "lset", lset_list); (B "ltrim", ltrim_list); (B "rpop", rpop_list); (B "rpush", rpush_list);
  (B "rpushx", rpushx_list);
  (B "sadd", sadd_set); (B "scard", scard_set); (B "sdiff", sdiff_set);
  (B "sdiffstore", sdiffstore_set); (B "sinter", sinter_set); (B "sinterstore", sinterstore_set);
  (B "sismember", sismember_set); (B "smembers", smembers_set); (B "smove", smove_set);
  (B "spop", spop_set); (B "srandmember", srandmember_set); (B "srem", srem_set);
  (B "sunion", sunion_set); (B "sunionstore", sunionstore_set) ].

Fixpoint assoc {A} (n : bytes) (l : list (bytes * A)) : option A :=
  match l with
  | [] => None
  | (m, x) :: r => if beq n m then Some x else assoc n r
  end.

(** CmdTable[cmdName] *)
Definition lookup_cmd (n : bytes) : option (command -> prog rdata) := assoc n cmd_table.

(** "unknown command '%s'" (server/handler.go:99). *)
Definition unknown_cmd (n : bytes) : rdata := RErr (B "unknown command '" ++ n ++ B "'").

(** What ExecCommand (server/handler.go:88-101) runs for a command other than SELECT,
    on the database [m.db] read just before. *)
Definition exec_in_db (cmd : command) : prog rdata :=
  match cmd with
  | [] => Crash                                            (* cmd[0] *)
  | n :: _ =>
      match lookup_cmd (to_lower (str n)) with
      | Some ex => ex cmd
      | None => Ret (unknown_cmd (str n))
      end
  end.
End WithParams.
