(** Specification vocabulary for the properties of all commands at once. *)
From Verif Require Export Spec.

(** ** Names *)
(** Two byte strings that differ only in the case of ASCII letters. *)
Definition capital_of (u l : ascii) : Prop := (65 <= code u <= 90)%N /\ code l = (code u + 32)%N.
Definition same_upto_case (a b : bytes) : Prop :=
  Forall2 (fun x y => x = y \/ capital_of x y \/ capital_of y x) a b.
(** The spellings of a name written in lower case: every letter in either case.  The unicode rules add two:
    U+0130 (bytes C4 B0) is a spelling of i, and U+212A, the Kelvin sign (bytes E2 84 AA), of k. *)
Inductive spelling : bytes -> bytes -> Prop :=
| SpNil : spelling [] []
| SpChar x c w s : x = c \/ capital_of x c -> spelling w s -> spelling (x :: w) (c :: s)
| SpDotted w s : spelling w s -> spelling (ascii_of_N 196 :: ascii_of_N 176 :: w) (ascii_of_N 105 :: s)
| SpKelvin w s : spelling w s -> spelling (ascii_of_N 226 :: ascii_of_N 132 :: ascii_of_N 170 :: w) (ascii_of_N 107 :: s).
(** ASCII, and no capitals. *)
Definition small (s : bytes) : Prop := Forall (fun c => (code c < 128)%N /\ ~ (65 <= code c <= 90)%N) s.

(** ** Argument counts *)
(** The numbers of words (name included) each command admits. *)
Inductive arity := Between (a b : nat) | AtLeast (a : nat) | OddFrom (a : nat) | EvenFrom (a : nat).
Definition arity_table : list (string * arity) := [
  ("ping", Between 1 2); ("del", AtLeast 2); ("exists", AtLeast 2); ("keys", Between 2 2);
  ("expire", Between 3 4); ("persist", Between 2 2); ("ttl", Between 2 2); ("rename", Between 3 3);
  ("type", Between 2 2); ("set", AtLeast 3); ("get", Between 2 2); ("getrange", Between 4 4);
  ("setrange", Between 4 4); ("mget", AtLeast 2); ("mset", OddFrom 3); ("setex", Between 4 4);
  ("setnx", Between 3 3); ("strlen", Between 2 2); ("incr", Between 2 2); ("incrby", Between 3 3);
  ("decr", Between 2 2); ("decrby", Between 3 3); ("incrbyfloat", Between 3 3); ("append", Between 3 3);
  ("hdel", AtLeast 3); ("hexists", Between 3 3); ("hget", Between 3 3); ("hgetall", Between 2 2);
  ("hincrby", Between 4 4); ("hincrbyfloat", Between 4 4); ("hkeys", Between 2 2); ("hlen", Between 2 2);
  ("hmget", AtLeast 3); ("hmset", EvenFrom 4); ("hset", EvenFrom 4); ("hsetnx", Between 4 4);
  ("hvals", Between 2 2); ("hstrlen", Between 3 3); ("hrandfield", Between 2 4);
  ("lindex", Between 3 3); ("linsert", Between 5 5); ("llen", Between 2 2); ("lmove", Between 5 5);
  ("lpop", Between 2 3); ("lpos", OddFrom 3); ("lpush", AtLeast 3); ("lpushx", AtLeast 3);
  ("lrange", Between 4 4); ("lrem", Between 4 4); ("lset", Between 4 4); ("ltrim", Between 4 4);
  ("rpop", Between 2 3); ("rpush", AtLeast 3); ("rpushx", AtLeast 3);
  ("sadd", AtLeast 3); ("scard", Between 2 2); ("sdiff", AtLeast 2); ("sdiffstore", AtLeast 3);
  ("sinter", AtLeast 2); ("sinterstore", AtLeast 3); ("sismember", Between 3 3); ("smembers", Between 2 2);
  ("smove", Between 4 4); ("spop", Between 2 3); ("srandmember", Between 2 3); ("srem", AtLeast 3);
  ("sunion", AtLeast 2); ("sunionstore", AtLeast 3) ]%string.
Definition admits (a : arity) (n : nat) : bool :=
  match a with
  | Between x y => (x <=? n) && (n <=? y)
  | AtLeast x => x <=? n
  | OddFrom x => (x <=? n) && Nat.odd n
  | EvenFrom x => (x <=? n) && Nat.even n
  end%nat.

(** ** Types *)
(** The single-key commands that need a value of one kind. *)
Definition typed_commands : list (string * kind) :=
  map (fun s => (s, KStr)) ["get"; "getrange"; "setrange"; "strlen"; "incr"; "incrby"; "decr"; "decrby";
     "incrbyfloat"; "append"]%string ++
  map (fun s => (s, KHash)) ["hdel"; "hexists"; "hget"; "hgetall"; "hincrby"; "hincrbyfloat"; "hkeys"; "hlen";
     "hmget"; "hmset"; "hset"; "hvals"; "hstrlen"; "hrandfield"]%string ++
  map (fun s => (s, KList)) ["lindex"; "linsert"; "llen"; "lpop"; "lpos"; "lpush"; "lpushx"; "lrange"; "lrem";
     "lset"; "ltrim"; "rpop"; "rpush"; "rpushx"]%string ++
  map (fun s => (s, KSet)) ["sadd"; "scard"; "sismember"; "smembers"; "spop"; "srem"]%string.
Definition wrong_type (now : Z) (d : db) (k : bytes) (kd : kind) : Prop :=
  exists v dl, view now d k = Some (v, dl) /\ kind_of v <> kd.

(** ** Commands by effect *)
(** Commands that change nothing. *)
Definition read_names : list string :=
  ["get"; "getrange"; "strlen"; "mget"; "exists"; "type"; "ttl"; "keys"; "ping"; "hget"; "hmget"; "hgetall";
   "hkeys"; "hvals"; "hlen"; "hexists"; "hstrlen"; "hrandfield"; "lindex"; "llen"; "lrange"; "lpos"; "scard";
   "sismember"; "smembers"; "srandmember"; "sinter"; "sunion"; "sdiff"]%string.
(** Commands that can set a deadline. *)
Definition deadline_names : list string := ["set"; "setex"; "expire"; "rename"]%string.

(** ** Expired keys *)
(** The commands on one key, PERSIST apart. *)
Definition one_key_commands : list string := [
  "expire"; "ttl"; "type"; "set"; "get"; "getrange"; "setrange"; "setex"; "setnx"; "strlen"; "incr";
  "incrby"; "decr"; "decrby"; "incrbyfloat"; "append"; "hdel"; "hexists"; "hget"; "hgetall"; "hincrby";
  "hincrbyfloat"; "hkeys"; "hlen"; "hmget"; "hmset"; "hset"; "hsetnx"; "hvals"; "hstrlen"; "hrandfield";
  "lindex"; "linsert"; "llen"; "lpop"; "lpos"; "lpush"; "lpushx"; "lrange"; "lrem"; "lset"; "ltrim"; "rpop";
  "rpush"; "rpushx"; "sadd"; "scard"; "sismember"; "smembers"; "spop"; "srandmember"; "srem" ]%string.

(** Two outcomes a client cannot tell apart, now or later. *)
Definition same_outcome (now : Z) (o1 o2 : outcome rdata) : Prop :=
  match o1, o2 with
  | Done r1 d1, Done r2 d2 => r1 = r2 /\ forall t k, now <= t -> view t d1 k = view t d2 k
  | Crashes d1, Crashes d2 => forall t k, now <= t -> view t d1 k = view t d2 k
  | Hangs d1, Hangs d2 => forall t k, now <= t -> view t d1 k = view t d2 k
  | _, _ => False
  end.
(** The command answers an error and changes nothing a client can see. *)
Definition rejected (now : Z) (d : db) (o : outcome rdata) : Prop :=
  match o with
  | Done (RErr _) d' => forall t k, now <= t -> view t d' k = view t d k
  | _ => False
  end.
(** The command answers and changes nothing a client can see. *)
Definition harmless (now : Z) (d : db) (o : outcome rdata) : Prop :=
  match o with
  | Done _ d' => forall t k, now <= t -> view t d' k = view t d k
  | _ => False
  end.

(** The database without key [k]. *)
Definition without_key (k : bytes) (d : db) : db :=
  mkDb (delete k (dict d)) (delete k (exps d)) (match dict d !! k with Some _ => cnt d - 1 | None => cnt d end).

Section WithParams.
Context {P : Setup}.

(** Every behaviour of [p] where [k] is expired is one where [k] does not exist, except that [p] may answer
    something where it would answer an error to a missing key. *)
Definition like_missing (now : Z) (d : db) (k : bytes) (p : prog rdata) : Prop :=
  forall out, runs (eq now) d p out ->
    exists out', runs (eq now) (without_key k d) p out' /\
      (same_outcome now out out' \/ (harmless now d out /\ rejected now d out')).

(** ** Histories *)
(** [hist t d l d']: starting at time [t] in [d], the commands of [l], each with the time it runs at and its
    reply, are executed one after the other without crash, the clock never going back, and leave [d']. *)
Inductive hist : Z -> db -> list (Z * command * rdata) -> db -> Prop :=
| hist_nil t d : hist t d [] d
| hist_cons t d t1 cmd r d1 l d' :
    t <= t1 -> step t1 d cmd (Done r d1) -> hist t1 d1 l d' -> hist t d ((t1, cmd, r) :: l) d'.
(** The time after the last command. *)
Fixpoint last_time (t : Z) (l : list (Z * command * rdata)) : Z :=
  match l with [] => t | (t1, _, _) :: l' => last_time t1 l' end.
(** A command that leaves key [k] alone: it does not name it or is read-only. *)
Definition leaves (k : bytes) (cmd : command) : Prop :=
  k ∉ key_args cmd \/ exists n args, cmd = n :: args /\ to_lower (str n) ∈ map B read_names.
(** A deadline that has not passed by time [u]. *)
Definition holds_until (dl : option Z) (u : Z) : Prop := match dl with Some t => u <= t | None => True end.
(** Histories in which [k] is only appended to; [x] is the concatenation of the pieces. *)
Inductive appends (k : bytes) : list (Z * command * rdata) -> bytes -> Prop :=
| ap_nil : appends k [] []
| ap_other t cmd r l x : leaves k cmd -> appends k l x -> appends k ((t, cmd, r) :: l) x
| ap_app t n k' a r l x : named n "append" -> str k' = k -> appends k l x ->
    appends k ((t, [n; k'; a], r) :: l) (str a ++ x).
(** Histories in which [k] is only counted up and down; [z] is the sum of the increments. *)
Inductive counts (k : bytes) : list (Z * command * rdata) -> Z -> Prop :=
| ct_nil : counts k [] 0
| ct_other t cmd r l z : leaves k cmd -> counts k l z -> counts k ((t, cmd, r) :: l) z
| ct_incr t n k' r l z : named n "incr" -> str k' = k -> counts k l z -> counts k ((t, [n; k'], r) :: l) (1 + z)
| ct_decr t n k' r l z : named n "decr" -> str k' = k -> counts k l z -> counts k ((t, [n; k'], r) :: l) (-1 + z)
| ct_incrby t n k' a i r l z : named n "incrby" -> str k' = k -> atoi (str a) = Some i -> counts k l z ->
    counts k ((t, [n; k'; a], r) :: l) (i + z)
| ct_decrby t n k' a i r l z : named n "decrby" -> str k' = k -> atoi (str a) = Some i -> counts k l z ->
    counts k ((t, [n; k'; a], r) :: l) (- i + z).

End WithParams.
