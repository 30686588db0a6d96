# Formal model of gRedis in Rocq (Coq 8.16.1)

## 1. Approach

The model is a set of total, executable Gallina definitions, one per Go function,
each with a comment naming the file and lines it models and saying where it simplifies.
Proofs are kept apart from the model.  The property theorems live in `Prop*.v` files, which
contain statements, one-line proofs, `Print Assumptions`, and one concrete
`Example` per property that meets the hypotheses.  The vocabulary used in
statements is in small separate files (`Spec*.v`, `Lin.v`, `Serial.v`, the end of `Conc.v`).

An executor is a *program* (`prog`, `Prog.v`): a tree whose nodes are the accesses the
Go code makes to state shared between goroutines (clock reading, one map
iteration, one access to one segment of a `ConcurrentMap`, load and store of its
key counter, acquiring and releasing a lock) and whose leaves are a reply, a Go panic
(`Crash`) or an endless loop (`Hang`).  The same tree is interpreted twice:

* `Seq.v`: one command at a time (`runs`), the clock showing any value of a set `T` at each
  reading and every map iteration using any order;
* `Conc.v`: any number of goroutines interleaved node by node (`cstep`), with Go's
  `sync.RWMutex` (readers wait behind announced writers).

### Model files

| file | models |
|---|---|
| `Bytes.v` | byte strings, nil slices, 64-bit wrap-around, `make`, `strconv.ParseInt/Atoi/FormatInt`, `strings.ToLower`, FNV-1a (`util.Hash`) |
| `Resp.v` | `resp/data.go` |
| `Parser.v` | `resp/parser.go`, on a stream cut into arbitrary pieces |
| `Prog.v` | the effect language; `memdb/locks.go`; `memdb/memdb.go`; `Set/Get/Delete` of `memdb/concurrentMap.go` as effects |
| `Glob.v` | `util.PattenMatch` |
| `CmdKeys.v`, `CmdStrings.v`, `CmdHash.v`, `CmdList.v`, `CmdSet.v` | every executor of `memdb/{keys,strings,hash,list,set}.go`, with `hash_struct.go`, `set_struct.go`, and `list_struct.go` on plain sequences |
| `Table.v` | `memdb/command.go` and the five `Register*Commands` |
| `Seq.v`, `Conc.v` | execution alone and interleaved |
| `CMap.v` | `memdb/concurrentMap.go`, segment by segment |
| `Shard.v` | `Set`, `Delete`, `Get`, `Keys` of `memdb/concurrentMap.go` with the segment locks, step by step, interleaved |
| `DList.v` | `memdb/list_struct.go`, pointer by pointer |
| `Server.v` | `server/handler.go`: `NewManager`, `Handle`, `ExecCommand`, `Select` |
| `Config.v` | `config/config.go` (`ParseConfFile`), level filter of `logger/logger.go` |
| `Main.v` | `main.go`, `flag.Parse` and `strconv.ParseInt(s, 0, 64)` as `config/config.go` uses them, `config.Init`, `logger.Init`, `server.Start` up to serving, `NewManager`'s panics |
| `Log.v` | `logger/logger.go`: the calls from any number of goroutines, the mutex, the prefix, the file |
| `Startup.v` | `NewLocksManager`, `NewMemDb` |
| `Pipe.v` | one connection: client, parser goroutine, unbuffered channel, handler goroutine, closing |
| `Slice.v` | the byte slices and backing arrays that hold string values (`memdb/strings.go`) |
| `Net.v` | the connections' handlers interleaved on the shared manager and all databases |
| `World.v` | the whole process: `server/server.go` (accept loop, signal), `main.go`'s exit, every connection as in `Pipe.v`, the executors as in `Net.v`, bytes written |
| `Flow.v` | `conn.Write` that waits for the client, takes part of a reply, or fails (`server/handler.go:69-82`), over `World.v` |

### Specification files

`Spec.v` (what each command does to the entries of the keys it names: `implements_on`),
`SpecGeneric.v` (arity table, read commands, ...), `SpecWire.v` (RESP decoder), `SpecServer.v`,
`SpecGlob.v` (declarative matching), `SpecDList.v` (representation predicate), `SpecCMap.v`, `SpecConfig.v`,
`Serial.v` (executions with atomic sections), `Lin.v` (commands executed one at a time), `SpecNet.v` (the manager executing one command at a time), `SpecPipe.v`, `SpecSlice.v`, `SpecWorld.v`, `SpecFlow.v`, `SpecPanic.v` (commands that cannot panic or loop), `SpecEmpty.v` (empty containers), `SpecGrammar.v` (what the parser makes of any bytes), `SpecMain.v` (command line, outcomes of the start), `SpecLog.v`, `SpecRef.v` (reference of all commands), `SpecWhole.v` (the server as its clients see it), `SpecParts.v` (the same with overlapping DEL, EXISTS and MGET), `SpecShard.v` (what is seen of step-by-step map accesses), `SpecReaders.v` (commands that only read), `SpecStable.v` (what happens while a command works on a value), `SpecRace.v` (which accesses the locks order), `SpecHoldup.v` (clients that stand still, and the rest), `SpecStall.v` (commands held up by an endless one), `SpecApart.v` (clients whose keys nobody else uses), `SpecStale.v` (handlers that see an old value of the selected database), `SpecTally.v` (loads of the counter that give any number), `SpecNil.v` (values with a nil interface inside), `SpecMute.v` (goroutines that stand still), `SpecMemory.v` (what is stored under a key), `SpecExpired.v` (replies on a missing key), `SpecOnlyRead.v` (keys that are only read).

## 2. Specification style

What a client can observe of a key at time `t` is its *entry*: the value and deadline, or nothing if the key
is missing or its deadline has passed.  A command theorem says: started in any state that
satisfies the invariant `Inv` (deadlines belong to existing keys; the counter is the number of keys),
which every reachable state does (C13), the reply is the given function of the entries of the
named keys, and the entries afterwards are the old ones with only those of the named keys
replaced, at every later instant.

Where the code violates the property one would expect, the positive part is proved in full and the
violation is a theorem named `..._refuted`, whose witness is computed by `vm_compute`.

## 3. Properties

* C01-C07 wire layer: `PropWire.v`.  Induction over the commands / the reply value; independence of the cutting by
  simulation with the uncut stream; crash witnesses by computation.
* C08-C14, C59 what holds of all commands: `PropGeneric.v`, by case analysis over the command table; C12 for the commands of several keys: `PropTypes.v`, from the reference of C74.
* C15-C21 keyspace: `PropKeys.v`; C22 `PropGlob.v` (`GlobExact.v`: every pattern, by a grammar of how the matcher reads it); C23-C30 `PropStrings.v`; C31-C34 `PropHash.v`;
  C35-C40 `PropList.v`; C42-C47 `PropSet.v`: weakest preconditions (`Wp.v`) of the program trees.
* C41 `PropDList.v`: representation predicate over the heap, one lemma per operation, also against other lists in the same heap.
* C48 `PropCMap.v`: abstraction to one finite map.
* C49-C50 `PropServer.v`: the manager as a state machine.
* C51-C52 `PropConc.v`: static lock discipline of the trees (`Wf.v`), then the ordering argument on the locks.
* C53-C54 `PropSerial.v`: simulation by executions with atomic sections; then commutation to whole commands.
* C55-C57 `PropRace.v`: program judgements closed under every step, and witness schedules.
* C58, C60, C61 `PropConfig.v`.
* C62-C63 `PropNet.v`: the order of C53 for each database, merged at the SELECTs: a command is placed while its database was selected.
* C64-C65 `PropPipe.v`: invariant relating the values passed so far to what the parser delivers for every possible continuation of the input.
* C66 `PropSlice.v`: invariant that no two keys share an array and that handed-out slices lie within the part of it in use.
* C67-C69 `PropWorld.v`: the process refines Net and every connection refines Pipe; invariants carried over both.
* C47 `PropEmpty.v`: a judgement like that of C70 (`Full.v`) which also tracks the debts of a program: the keys under whose exclusive lock it has made a container empty and must fill or remove it again.
* C71, and C06, C64, C68, C69 for arbitrary bytes, `PropGrammar.v`: a grammar of pieces that covers every byte string (`GramProofs.v`), carried to one connection (`GramPipe.v`) and to the process (`GramWorld.v`).
* C70 `PropPanic.v`: a static judgement on programs (`Safe.v`) that tracks what a program has read, with the invariants that make panicking leaves unreachable. The exact conditions (`PanicExact.v`) are proved command by command with the weakest preconditions.
* C72 `PropMain.v`: the grammar of the command line and the meaning of the file are total and sound for the functions of `Main.v` (`MainInt.v`, `MainProofs.v`, `MainStart.v`). C73: an invariant of the interleavings.
* C74 `PropRef.v`: a table of meanings built from a few combinators (`SpecRef.v`); for each command every shape of its arguments, lingering keys included (`RefStrings.v`, `RefKeys.v`, `RefHash.v`, `RefList.v`, `RefSet.v`); that the table determines replies, by the combinators (`RefDet.v`).
* C75, C76 `PropWhole.v`: the server as its clients see it (`SpecWhole.v`: histories of several clients, SELECT, the reference of C74). C75 turns the turns of C67 into such a history (`WholeProofs.v`); C76 goes through the process step by step while at most one command is in hand (`OneProofs.v`).
* C77 `PropFlow.v`: a step of the process is allowed while handlers wait in `conn.Write` if it is also a step of the process without them (`Flow.v`); invariants of the outgoing bytes, and the progress proof of C68 with handlers missing (`FlowProofs.v`).
* C78 `PropParts.v`: C75 with the pieces of C53. Each database of the process is related to one in which the current command of every client is the sequence of its pieces (`like`, `LinSplit.v`), and this one to the reference by the invariants of C53 and C67 (`JI`, `PartsProofs.v`).
* C79 `PropShard.v`: simulation of the step-by-step accesses by those of `Conc.v` (`INV`, `ShardProofs.v`): a Set of a new key takes effect when it finds the key missing, all others when they touch the Go map; between the two moments of a Set nobody else reads or changes the key, because of the segment lock and, for changes inside objects, the key's lock. Progress: who is inside a segment can always go on.
* C80 `PropReaders.v`: every reading executor is `quiet` (walk over its program), an invariant of all clients together.
* C81 `PropStable.v`: from the lock discipline (`wf`) and the invariant of C51; the locks of one goroutine only grow until its first release.
* C82 `PropOrdered.v`: who holds a lock at two moments conflictingly must have handed it over in between.
* C83 `PropHoldup.v`: the ordering argument of C51 within a set of locks that those who stand still do not use.
* C84 `PropStall.v`: C83's argument for the whole process: the invariant of Net.v with the locks of each command in execution, then the chains in the databases at rest.
* C85 `PropApart.v`: the machine of C78 restricted to the keys of one client (`SI`, `ApartProofs.v`): the pieces of the other clients leave them alone, so the pieces of a DEL, EXISTS or MGET join up to one step of the reference. For the last part the meaning of the commands in question is shown not to depend on the time and to give no deadlines (`TimelessProofs.v`).
* C86 `PropStale.v`: a handler that sees an old value is put down to two SELECTs of further clients, one just before the start of its command and one just after; the further clients connect and send at the very beginning, so that their handlers only have to execute the command (`StaleLink.v`: a command sent alone gets to its handler; `StaleProofs.v`: further clients leave the steps of the others possible and hold up nothing).
* C87 `PropTally.v`: the programs of all commands but KEYS go on alike whatever they load from the counter (`TallyProg.v`), so an execution is followed step by step by one in which the loads give what was stored (`TallyProofs.v`); the rest comes from C86.
* C88 `PropMute.v`: the argument of C84 with goroutines that stand still although they could go on: who waits for a lock waits for someone who holds it or has announced that it wants it, and that one stands still, loops, or waits for a higher lock (`MuteProofs.v`).
* C89 `PropMemory.v`: every executor writes and removes only under the keys of its command, a reading one only removes (`may`, from the lock discipline and a walk over the reading commands); an invariant of the process says which command each executor is part of (`MemoryProofs.v`).
* C90 `PropExpired.v`: a predicate on programs (`sees`) that follows what an executor can find under one expired key while others may remove it, value before deadline; every command meets it (`ExpiredCmds.v`), and it is an invariant of the process together with the state of the key (`ExpiredMain.v`); every entry of a log comes from an executor that has returned (`ExpiredLog.v`).
* C91 `PropOnlyRead.v`: a program predicate says that nothing under the keys changes (`leaves`), another that only they are read (`rooted`, from the lock discipline and C80's walk over the reading commands); an executor then takes the steps of its command alone on the earlier database (`OnlyReadProofs.v`), as an invariant of the process (`OnlyReadMain.v`).
* C92 `PropAlone.v`: an execution alone is carried along on a database of its own that agrees on the keys (`track`); the counter, in which the two differ, has no influence (`eqc` of C87); other executors write under their own keys only (C89) (`AloneProofs.v`).

## 4. Trusted base

* The Coq 8.16.1 kernel (with its `vm_compute`), the Coq standard library and std++.
  Every property theorem is "Closed under the global context" (section 7).  Loading std++ loads `Coq.ssr.ssrunder`,
  whose module type declares seven parameters (`Under_rel`, `Under_rel_from_rel`, `Under_relE`, `Over_rel`,
  `over_rel`, `over_rel_done`, `under_rel_done` of `Coq.ssr.ssrunder.Under_rel`), which the
  checker lists as library axioms; no theorem here depends on them.
* The reading of the Go code, documented by the comments in the model.
* Facts about Go used: nil and empty slices, arbitrary map iteration order, `sync.RWMutex`,
  64-bit `int`, `make` panics on negative or too large sizes, `strconv`, `strings.Fields`, `strings.ToLower`,
  `bufio.Reader`, `io.ReadFull`, `flag`, `log.Logger` and `os.File` by their documentation.

### Assumptions and simplifications, in one place

* `SegNum` is between 1 and 2^32-2 (`Setup.segnum : positive`; `Startup.v` and C61 treat the other values).
* Floating point (`ParseFloat`, `FormatFloat`, addition) is a parameter of the model (fields of the class
  `Setup`, hence universally quantified), as is `net.ParseIP`.
* The clock may show any value at any reading, even going backwards, unless a theorem restricts it
  (`T` in `runs T`, `cstep T`; `step now` is a command during which the second does not change).
* Stored objects (`*List`, `*Hash`, `*Set`) are modelled by value: the reads a command makes of an object
  happen at its `DGet`, and its in-place updates, all under the key's exclusive lock, are one
  `DMut`.  C81 is what makes this right: the value stays the same from the fetch to the first release, so it does not matter when its parts are
  read, and nobody else is between fetch and release of a value that is being updated, so it does not matter how the update is spread out.
  The exception is the existence check of SETNX, which does not look inside the object.
* An access to one segment of a map (under that segment's own mutex) is one step; C79 shows that this is no assumption.  `db.expires.count` is never read
  and left out; `db.dict.count` is loaded and stored in separate steps, as it is not protected by a common lock.
* Executions are interleavings of steps on one memory.  The Go memory model grants this to programs without data races, and C82 shows that the accesses to stored values and
  to the maps are ordered by the locks.  Two races remain: `db.dict.count` and `Manager.db`; for these a goroutine might, in reality, also see an older value than the model shows.
  C86 shows what that can do for `Manager.db`, and C87 for both together: nothing new as long as nobody asks for KEYS, which may panic if it sees an old count.
* One database at a time in `Conc.v`: databases share neither maps nor locks; `Net.v` puts them together.  Reading and storing the pointer `Manager.db` is one
  step each (the access is not synchronised in the code; C50 is the consequence for clients).
* A panic ends the whole process in Go; in `Conc.v` and `Net.v` it ends its goroutine only, so theorems about executions also cover what the others would have done.  In `World.v` it ends the process.
* C53 compares values and deadlines, not the key counter, which only KEYS reads.
* In `Server.v` the parser and the handler of a connection are composed through the list of values the parser would send; `Pipe.v` has the two
  goroutines and C64 justifies this.
* `strings.ToLower` leaves non-ASCII bytes alone except for the two characters that lower to ASCII letters (U+212A, U+0130);
  its results are only compared with ASCII words.
* Slices are values in the command model.  C66 (`Slice.v`) shows that the sharing of backing arrays does not disturb stored values, and when
  it disturbs a reply that has not been written yet; `Net.v` and `Pipe.v` take a reply to be the value at the time of the command.
* Loops that the code bounds by pointers or files (`DList.v`, `Config.v`) take a bound on the number of iterations; the
  theorems hold for every large enough bound, or say that no bound is enough.

## 5. What is not modelled

TCP beyond what `Pipe.v`, `World.v` and `Flow.v` say (bytes arrive in order and in pieces, streams end or are reset, writes wait, are cut up or fail),
errors of `Accept` (logged and retried, `server/server.go:50-55`; they change no state), how a log message is put into words, writes to the log or to standard output (`lMoveList` prints the target list with `fmt.Println` while it holds
the locks of both keys, `memdb/list.go:196`, and the logger writes to standard output as well as to its file while it holds `logMu`; the text changes no state;
for what happens when such a write blocks see C88; the result of one that fails is not looked at, but Go ends a program that writes to standard output when that is a closed pipe),
memory exhaustion below Go's limit for `make`, tests and benchmark scripts.

## 6. What was found in the code

Each item is shown by a theorem (in parentheses the property).

1. Remote crashes by malformed input: empty array, lone newline, empty line, non-RESP line inside an array, oversized bulk length (C06).
2. CR/LF injection into error replies of SET, EXPIRE, LPOS and unknown commands (C05).
3. LPOP and RPOP accept surplus arguments (C09).
4. A dangling EX or PX option of SET panics; a failed NX or XX still drops the deadline (C12, C24).
5. SETRANGE drops the tail of the old value (C26); GETRANGE to the maximum integer is empty (C25).
6. INCR on a missing key answers 0 and creates nothing; overflow wraps (C28).
7. HSETNX refuses whenever the key exists (C34).
8. LINDEX/LSET with the minimum integer and LTRIM on an empty list panic; LREM with the minimum integer removes nothing (C36, C37).
9. LINSERT inserts at every pivot; LINSERT AFTER with the element equal to the pivot never ends and keeps its lock (C38).
10. Empty containers remain after SREM, the STORE commands, LMOVE, HINCRBY, HINCRBYFLOAT, and after no other command, and then crash LMOVE, HRANDFIELD, SRANDMEMBER (C40, C46, C47).
11. SINTERSTORE skips missing sources (C44); SMOVE does not create its destination (C45); set operations and MGET drop expired operands (C14).
12. PERSIST answers 1 for a key without deadline (C17).
13. The pattern matcher gives wrong answers on `*?` and `*[`, and panics on `[a-` (C22).
14. The selected database is shared by all connections (C50).
15. Lazy deletion can remove a value written after the key expired (C56); two SETNX can both win (C55).
16. KEYS beside writers panics; two concurrent additions can corrupt the key counter, after which every KEYS panics; KEYS beside deletions lists empty keys (C57).
17. MGET, DEL and EXISTS of several keys are not atomic (C53).
18. A configuration file ending in a newline is read forever; a directive without argument panics (C58).
19. `SegNum` 0 makes every lock operation panic; negative values make startup panic (C61).
20. Every connection that ends otherwise than by io.EOF between commands leaves its parser goroutine blocked forever, and that goroutine can still crash the process (C65).
21. GET, MGET and GETRANGE reply with a slice of the stored array, written after the lock is released: a SETRANGE in between makes them answer a value the key never had (C66).
22. A signal ends the process at once: the context with a timeout made for a graceful shutdown is thrown away, so a command can have taken effect without being answered (C69).
23. One client's panic ends the service of all (C69); twelve commands can panic (C70), among them SINTER, SDIFF and SUNION when all operands have expired.
24. A configuration file that cannot be read (such as a directory) is silently taken for an empty one, as `return err` returns the wrong error; `-port 010` is port 8 but `port 010` in the file is port 10; `DbNum` 0 or negative panics after the address has been bound (C72).
25. The log file is opened without appending or truncating: a restart overwrites the beginning of the previous log (C73).
26. After `conn.Write` has failed, the commands of that client are still executed; no deadline bounds a write, so a client that does not read holds its handler for ever (C77).
27. An endless LINSERT stops not only the users of its key: a command that waits for it keeps the locks it has, so others wait for that one, although they name none of the LINSERT's keys (C83, C84).
28. LMOVE to the right end of a list prints the list to standard output, a left-over of debugging, while it holds the locks of both keys; the main goroutine logs each connection before it serves it and while it cannot see a signal. If the reader of standard output stops, no new client is served, a signal is not obeyed and the commands behind those locks wait (C88).
29. Nothing but a command on the key itself, or KEYS, frees a key whose deadline has passed: keys that are set with a deadline and never asked for again fill the memory (C89).

## 7. Print Assumptions

Output of `tools/assumptions.py` (392 theorems).

"Closed under the global context":

* C01: arguments, pipeline
* C02: fragmentation, never_out_of_fuel
* C03: executed, truncated
* C04: crlf_refuted, not_encoded, round_trip, texts, unambiguous
* C05: handled, injection_refuted, one_reply_each, options_refuted, outcome, replies
* C06: exact, handler_refuted, parser_refuted, well_formed
* C07: accepts, canonical, round_trip
* C08: case_insensitive, names_small, server_case, server_unknown, spelling, unknown_harmless
* C09: arity, lpop_refuted, rpop_refuted
* C10: frame
* C11: reads
* C12: lmove_refuted, missing_refuted, set_refuted, silent_refuted, store_refuted, wrong_type, wrong_type_lmove, wrong_type_set, wrong_type_setop, wrong_type_smove, wrong_type_srandmember, wrong_type_store
* C13: deadline_has_value, invariant
* C14: argument_error_refuted, commands, expired_invisible, mget_refuted, persist_refuted, sinter_refuted
* C15: expire_ttl, ttl
* C16: expire, expire_option, not_an_integer, unknown_option
* C17: persist, persist_forever, reply_refuted
* C18: del, exists
* C19: rename
* C20: type
* C21: keys
* C22: crash, exact, glob, keys, keys_exact, keys_refuted, range_refuted, star_refuted, terminates, total
* C23: set_get
* C24: contradiction, dangling_refuted, failed_nx_refuted, set, unsupported
* C25: getrange, max_int_refuted, not_an_integer
* C26: bad_offset, huge_refuted, keep_refuted, overwrite_keep, setrange
* C27: append, append_history, strlen
* C28: bad_increment, counter_history, decr, decrby, exact, incr, incrby, incrbyfloat, missing_refuted, modulo, overflow_refuted
* C29: mget, mset
* C30: setex, setnx
* C31: hdel, hexists, hget, hlen, hmget, hmset, hset, hstrlen
* C32: empty_refuted, hgetall, hkeys, hrandfield, hrandfield_count, hrandfield_withvalues, huge_refuted, hvals
* C33: bad_increment_refuted, hincrby, hincrby_not_an_integer, hincrbyfloat, hincrbyfloat_not_a_number
* C34: hsetnx, hsetnx_refuted
* C35: lpop, lpop_count, lpop_one, lpush, lpushx, rpop, rpop_count, rpop_one, rpush, rpushx
* C36: lindex, lindex_min_refuted, llen, lrange
* C37: lrem, lrem_min_refuted, lset, lset_min_refuted, ltrim, ltrim_empty_refuted
* C38: after, before, every_refuted, hang_refuted, unique
* C39: lpos
* C40: empty_refuted, lmove
* C41: histories, index_refuted, insert_after_refuted, methods, others, returns, trim_refuted
* C42: sadd, scard, sismember, smembers, srem
* C43: setop
* C44: expired_refuted, missing_refuted, setopstore
* C45: missing_refuted, smove
* C46: empty_refuted, huge_refuted, null_refuted, spop, spop_count, srandmember, srandmember_count, srandmember_zero
* C47: concurrent, hincrby_refuted, histories, kept, leaves_refuted, lmove_refuted, no_panic, quiescent, srem_refuted, store_refuted
* C48: histories, operation, segments
* C49: history, isolated, select, select_refused, start, zero_refuted
* C50: alone, shared_refuted
* C51: finishes, finite, no_deadlock
* C52: lock_discipline, no_fatal, no_read_write, one_writer, released
* C53: exists_refuted, linearizable, mget_refuted, outcome, pieces, serializable
* C54: counters, replies
* C55: present_loses, some_winner, two_winners_refuted
* C56: fresh_value_deleted_refuted, kept
* C57: counter_refuted, keys_refuted, no_new_keys
* C58: all_lines, bare_refuted, blank_end, faulty, lines, loads, newline_at_end_refuted, white, words
* C59: no_new_deadline
* C60: levels, unknown
* C61: locks, negative_refuted, zero_refuted
* C62: linearizable, order
* C63: finite, progress
* C64: any_order, any_prompt, finite, order, prompt
* C65: crash_refuted, ends, leak_refuted, never_returns, returned
* C66: contents, possible, reply, torn_refuted
* C67: frames, linearizable
* C68: any_served, finite, no_spin, served
* C69: any_no_panic, exit, exit_answers_refuted, final, isolation_refuted, kill_refuted, no_panic, outside, stops
* C70: answers, exact, exact_loop, linsert_loops, no_loop, no_panic, panicking
* C71: exact, total
* C72: cases, config, databases, exits, int, int_usual, level_refuted, loops, newline_refuted, numbers_refuted, octal_refuted, panics, read_error_refuted, serves, settings
* C73: all, ends, lines, restart_refuted
* C74: answered, determined, history, names, reference
* C75: all_answered, commands, end_to_end
* C76: all_answered, alone, one_at_a_time
* C77: around, finite, obeyed_refuted, one_reply, others, received, waits
* C78: all_answered, end_to_end, reply
* C79: atomic, end, exclusive, finishes, finite, no_fatal
* C80: replies, undisturbed
* C81: stable, writer_first, writer_second
* C82: counter_refuted, tables, values
* C83: apart, chain_refuted, goes_on, rests
* C84: above, for_ever, other_databases, served, slow
* C85: all_answered, alone, same, same_in_the_end
* C86: all_answered, any, finite, frames, no_panic, old_view, reference, served
* C87: all_answered, both, counts, finite, frames, no_panic, reference, served
* C88: above, console, includes, other_databases, pipelines, served, silent
* C89: freed_refuted, origin, removed, stays, written
* C90: answered, invisible, never_revived
* C91: answered, get, stays
* C92: alone

## 8. Seeded bugs

`seeded/LOG.jsonl` has one line for each wrong program tried: the definition edited, the edit, the claim that becomes false, the theorems that no longer prove (`failed`), the proofs at which the
build stopped (`failing_proofs`), the theorems changed or added because of it (`tightened`).

* The edits are of two sorts: some written by hand, each to break a particular claim, and some made by a script (a constant, a comparison, a branch, an argument or a constructor replaced by another, at a random place in a
  model file; those that do not type-check are left out). For the second sort the claim given is the title of the first property that fails.
* Lines with `run` come from a quick run: it stops at the first failing proof of each file, and `failed` lists the theorems that depend on one of these. In the other runs each failing proof was
  replaced by `Admitted` in the scratch copy and the build continued, so `failing_proofs` is complete.
* Edits that no theorem noticed, and which are wrong, led to stronger or further theorems (`tightened`, `note`). The others that no theorem noticed do not change what the program does (`claim` begins with "none").
* A few edits that repair the program (for instance, taking the lock of the key in SETNX) were tried and are not in the log.
