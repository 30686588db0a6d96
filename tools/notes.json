{
 "C08": [
  "proved",
  "Both for one database and for the whole server (SELECT included)."
 ],
 "C09": [
  "proved",
  "All commands but LPOP and RPOP, for which the property is refuted."
 ],
 "C10": [
  "proved",
  "For every command that returns."
 ],
 "C11": [
  "proved",
  ""
 ],
 "C12": [
  "proved",
  "44 typed single-key commands, SET and SRANDMEMBER in full; SINTER, SUNION, SDIFF with any key of another type; the STORE commands with such a first source; SMOVE and LMOVE with a source that exists and is not empty. The exceptions and violations named in the statement are shown by witnesses."
 ],
 "C13": [
  "proved",
  ""
 ],
 "C14": [
  "proved",
  "All single-key commands but PERSIST; the exceptions named in the statement are refuted by witnesses."
 ],
 "C15": [
  "proved",
  ""
 ],
 "C16": [
  "proved",
  ""
 ],
 "C17": [
  "proved",
  "The reply for keys without deadline is refuted by witnesses."
 ],
 "C18": [
  "proved",
  ""
 ],
 "C19": [
  "proved",
  ""
 ],
 "C20": [
  "proved",
  ""
 ],
 "C21": [
  "proved",
  "For databases of at most 2^44 keys."
 ],
 "C23": [
  "proved",
  ""
 ],
 "C24": [
  "proved",
  "What the code does with every option; the Redis contract for failed NX is refuted by a witness."
 ],
 "C25": [
  "proved",
  "The maximum integer as end is refuted by a witness."
 ],
 "C26": [
  "proved",
  "As implemented; the Redis contract (bytes after the written ones stay) is refuted by a witness."
 ],
 "C27": [
  "proved",
  ""
 ],
 "C28": [
  "proved",
  "Overflow and missing keys are refuted by witnesses. Floating point is a parameter of the model."
 ],
 "C29": [
  "proved",
  ""
 ],
 "C30": [
  "proved",
  ""
 ],
 "C31": [
  "proved",
  ""
 ],
 "C32": [
  "proved",
  "Crashes on huge negative counts and empty hashes are shown by witnesses."
 ],
 "C33": [
  "proved",
  ""
 ],
 "C34": [
  "proved",
  "As implemented; the Redis contract is refuted by a witness."
 ],
 "C35": [
  "proved",
  ""
 ],
 "C36": [
  "proved",
  "LINDEX with the minimum integer crashes, shown by a witness."
 ],
 "C37": [
  "proved",
  "Except for the minimum integer in LSET (crash) and LREM (removes nothing), shown by witnesses."
 ],
 "C38": [
  "proved",
  "As implemented, and equal to the Redis contract when the pivot occurs at most once; refuted otherwise by witnesses."
 ],
 "C39": [
  "proved",
  ""
 ],
 "C40": [
  "proved",
  "The crash on an empty source is shown by a witness."
 ],
 "C42": [
  "proved",
  ""
 ],
 "C43": [
  "proved",
  ""
 ],
 "C44": [
  "proved",
  "SINTERSTORE with a missing source and expired sources refuted by witnesses."
 ],
 "C45": [
  "proved",
  "A missing destination refuted by a witness."
 ],
 "C46": [
  "proved",
  "The crash and the null reply are shown by witnesses."
 ],
 "C47": [
  "proved",
  "Refuted by a witness for each of the seven commands concerned. For histories without them, sequential and concurrent, proved: no empty container outside an exclusive lock, and LTRIM, HRANDFIELD, SRANDMEMBER do not panic (the two latter with counts up to 2^43)."
 ],
 "C52": [
  "proved",
  "Static lock discipline of every execution tree, and its meaning for concurrent executions: one writer per key, no read during a write (SETNX apart), no unlock of a free lock, all locks free at the end."
 ],
 "C59": [
  "proved",
  ""
 ],
 "C01": [
  "proved",
  "Every well-formed pipeline, argument lengths up to what Go can allocate."
 ],
 "C02": [
  "proved",
  "Every byte stream, including malformed ones."
 ],
 "C03": [
  "proved",
  "Both for the events delivered by the parser and for the commands executed by the handler."
 ],
 "C04": [
  "proved",
  "For replies without CR/LF in status and error lines; with them refuted by a witness."
 ],
 "C05": [
  "proved",
  "The echoing commands (SET, EXPIRE, LPOS, unknown names) with CR/LF in their arguments are refuted by witnesses."
 ],
 "C06": [
  "proved",
  "The positive part for well-formed streams; six crashing streams as witnesses; C06_exact says exactly which streams crash the parser (grammar of SpecGrammar.v)."
 ],
 "C07": [
  "proved",
  ""
 ],
 "C49": [
  "proved",
  ""
 ],
 "C50": [
  "proved",
  "Refuted for two connections by a witness; holds for a single connection."
 ],
 "C22": [
  "proved",
  "Also: matching always ends, and crashes only on patterns ending in an open bracket expression and a dash. C22_total and C22_exact say for every pattern, well-formed or not, what it matches and where it panics; C22_keys_exact carries it to KEYS."
 ],
 "C41": [
  "proved",
  "Pointer-level model of list_struct.go refines the sequence functions used by the list commands; loops take an iteration bound and the theorems hold for every large enough bound. Assumes fewer than 2^62 elements."
 ],
 "C48": [
  "proved",
  "One goroutine at a time. The segment mutexes are represented in the concurrent model by making each segment access one atomic step."
 ],
 "C51": [
  "proved",
  "Every reachable state of any clients on one database; readers wait behind announced writers as in sync.RWMutex. Also: no schedule advances forever, and an execution that cannot advance has all replies, or a died or endlessly looping command."
 ],
 "C55": [
  "proved",
  "Positive part for any clients whose commands are SETNX on the key or leave it alone (do not name it, and are not KEYS); the double win is shown by a concrete execution."
 ],
 "C56": [
  "proved",
  "Every command that leaves the key alone, or neither removes keys nor sets a deadline before the limit; the removal of a fresh value is shown by a concrete execution."
 ],
 "C57": [
  "proved",
  "Any other clients, in executions in which no step adds a key; patterns on which the matcher crashes (C22) are left out. Crashes shown by concrete executions. The example also shows that KEYS can list empty keys that do not exist."
 ],
 "C53": [
  "proved",
  "Every execution of any commands but KEYS is simulated step by step by one with atomic sections (reads that commands make outside sections may see a point inside another section). The commands with one section (all but KEYS, SETNX and DEL/EXISTS/MGET of several keys) are atomic while no deadline of a named key passes. The key counter, which only KEYS reads, is not part of the contents compared. MGET and EXISTS of several keys: counterexamples to atomicity; they and DEL are shown to equal their one-key pieces. The order found respects each client's order; real-time order between clients is part of C62."
 ],
 "C54": [
  "proved",
  "For any mix of INCR, DECR, INCRBY and DECRBY; also, the replies to n INCRs are exactly v+1..v+n."
 ],
 "C58": [
  "proved",
  "Complete classification of every file: good and last line not blank; good and last line blank (never returns); first faulty line a panic or an error. net.ParseIP is a parameter; read errors other than end of file are left out (the code returns no error for them)."
 ],
 "C60": [
  "proved",
  "Level names and the comparison; formatting and the log file are not modelled."
 ],
 "C61": [
  "proved",
  "Ties the lock positions of the command model (lockpos) to the indices computed by the code."
 ],
 "C62": [
  "proved",
  "Connections, the shared manager and several databases (Net.v) against the manager executing one command at a time (SpecNet.v). That each command takes effect between start and reply is the clause caught_up, at every moment of the execution. KEYS, SETNX and multi-key DEL, EXISTS, MGET are excluded: they are not linearizable (C53, C55-C57)."
 ],
 "C63": [
  "proved",
  "Deadlock freedom and termination of the concurrent server, all commands."
 ],
 "C64": [
  "proved",
  "The two goroutines of a connection joined by the unbuffered channel (Pipe.v), with a client that may send or end at any moment. The executor may answer anything (C62 says what it answers). conn.Write is assumed to return. C64_any_*: the same for arbitrary bytes."
 ],
 "C65": [
  "proved",
  "The positive part is full; the violations are C65_leak_refuted and C65_crash_refuted, and C65_never_returns says they cover every end other than io.EOF."
 ],
 "C66": [
  "proved",
  "The positive part is full; the violation is C66_torn_refuted."
 ],
 "C67": [
  "proved",
  "The whole process (World.v) composes Pipe.v and Net.v. The commands excluded from linearizability are those of C62; the frames and the order hold for all."
 ],
 "C68": [
  "proved",
  "Full, also for arbitrary bytes (C68_any_served); the exception for LINSERT is a fact about the code (C70_linsert_loops)."
 ],
 "C69": [
  "proved",
  "The positive part is full, also for arbitrary bytes (C69_any_no_panic); the violations are C69_exit_answers_refuted, C69_isolation_refuted and C69_kill_refuted."
 ],
 "C70": [
  "proved",
  "Under interleavings the conditions on SET, LINDEX, LSET and SETRANGE are sufficient, and for the other eight names only a witness is given (C70_panicking). C70_exact and C70_exact_loop: for one command alone the panicking and looping cases are exactly those stated in SpecPanic.v."
 ],
 "C71": [
  "proved",
  "Full: every stream is covered (C71_total) and the output is determined (C71_exact)."
 ],
 "C72": [
  "proved",
  "flag.Parse and strconv.ParseInt with base 0 are modelled from their documentation and source; the operating system's answers are a parameter. The positive part is full; the violations are the C72_*_refuted theorems."
 ],
 "C73": [
  "proved",
  "The text and time of a message are arbitrary; a failed write is not modelled. The positive part is full; the violation is C73_restart_refuted."
 ],
 "C74": [
  "proved",
  "One command at a time. The reference is SpecRef.v over the per-command specifications of Spec.v; GETRANGE of a string longer than a Go string can be is left open (C74_determined assumes there is none)."
 ],
 "C75": [
  "proved",
  "Composes C72, C71, C67/C68 and C74. The commands are those with a single point of effect and far deadlines (hypotheses of the theorem, as in C62); C76 covers all commands when they do not overlap."
 ],
 "C76": [
  "proved",
  "No restriction on commands or deadlines. The clock stands still while a command is in execution."
 ],
 "C77": [
  "proved",
  "Safety and progress over World.v; C77_obeyed_refuted shows that a client whose connection broke for writing is still obeyed. Accept errors are logged and retried, and change no state."
 ],
 "C78": [
  "proved",
  "C75 for all commands but KEYS and SETNX (hypotheses of the theorem; the latter two take effect at several points and have refuted witnesses in C53)."
 ],
 "C79": [
  "proved",
  "Justifies the one-step map accesses of Conc.v. The counter of keys is not protected by a common lock; the example shows that it misses a key when two are added to different segments at the same time."
 ],
 "C80": [
  "proved",
  "One database (Conc.v). Without the hypothesis on deadlines a reading command removes the expired key under its exclusive lock (C14)."
 ],
 "C81": [
  "proved",
  "One database (Conc.v). Justifies the modelling of stored objects by value (DESIGN.md, section 3)."
 ],
 "C82": [
  "proved",
  "Values: the locks of the keys (Conc.v). Go maps: the locks of the segments (Shard.v). The counter of keys is a race, shown by a witness; the other is the selected database of the server, see C50."
 ],
 "C83": [
  "proved",
  "Standing still is arbitrary: the theorem takes any set of clients, whatever they are doing, and lets the others run until they cannot advance. The chain of waiting clients is shown by a witness."
 ],
 "C84": [
  "proved",
  "Refines C68 and C77, which say nothing about the other clients once an LINSERT is in its endless loop. Shared locks stand for waiting: the chain is through locks that both commands may take."
 ],
 "C85": [
  "proved",
  "C85_select_refuted shows why SELECT is excluded. GETRANGE is left out of the last part because the reference says nothing of strings longer than a Go string can be."
 ],
 "C86": [
  "proved",
  "The old value may be any database: more than the memory model of Go allows."
 ],
 "C87": [
  "proved",
  "A load of the counter may give any number: more than the memory model of Go allows. KEYS is excluded; C87_keys_refuted shows why."
 ],
 "C88": [
  "proved",
  "Which goroutines write to the console is read off the code (SpecMute.v); C88_silent shows for the parser and the handler that no value that they would log is under way. C88_served holds for goroutines that stand still for any reason."
 ],
 "C89": [
  "proved",
  "C89_freed_refuted is the last sentence: a process with nothing to do keeps an expired key."
 ],
 "C90": [
  "proved",
  "For one command alone see C14; for writers beside the removal see C56. EXISTS, MGET and the set operations, which take several keys, may be sent but their replies are not part of the claim."
 ],
 "C91": [
  "proved",
  "Carries C80, where all clients only read one database, to the whole process beside writers of other keys. KEYS names every key and so is not among the commands whose reply is claimed."
 ],
 "C92": [
  "proved",
  "Of one command and of the keys it uses, where C85 is about clients that share no keys at all; with C91 and C89 it can be applied command after command."
 ]
}