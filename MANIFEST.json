{
 "claims": [
  {
   "property": "C01",
   "status": "proved",
   "theorems": [
    "C01_pipeline",
    "C01_arguments"
   ],
   "note": "Every well-formed pipeline, argument lengths up to what Go can allocate."
  },
  {
   "property": "C02",
   "status": "proved",
   "theorems": [
    "C02_fragmentation",
    "C02_never_out_of_fuel"
   ],
   "note": "Every byte stream, including malformed ones."
  },
  {
   "property": "C03",
   "status": "proved",
   "theorems": [
    "C03_truncated",
    "C03_executed"
   ],
   "note": "Both for the events delivered by the parser and for the commands executed by the handler."
  },
  {
   "property": "C04",
   "status": "proved",
   "theorems": [
    "C04_round_trip",
    "C04_unambiguous",
    "C04_not_encoded",
    "C04_texts",
    "C04_crlf_refuted"
   ],
   "note": "For replies without CR/LF in status and error lines; with them refuted by a witness."
  },
  {
   "property": "C05",
   "status": "proved",
   "theorems": [
    "C05_replies",
    "C05_one_reply_each",
    "C05_outcome",
    "C05_handled",
    "C05_injection_refuted",
    "C05_options_refuted"
   ],
   "note": "The echoing commands (SET, EXPIRE, LPOS, unknown names) with CR/LF in their arguments are refuted by witnesses."
  },
  {
   "property": "C06",
   "status": "proved",
   "theorems": [
    "C06_exact",
    "C06_well_formed",
    "C06_parser_refuted",
    "C06_handler_refuted"
   ],
   "note": "The positive part for well-formed streams; six crashing streams as witnesses; C06_exact says exactly which streams crash the parser (grammar of SpecGrammar.v)."
  },
  {
   "property": "C07",
   "status": "proved",
   "theorems": [
    "C07_round_trip",
    "C07_accepts",
    "C07_canonical"
   ],
   "note": ""
  },
  {
   "property": "C08",
   "status": "proved",
   "theorems": [
    "C08_case_insensitive",
    "C08_unknown_harmless",
    "C08_spelling",
    "C08_names_small",
    "C08_server_case",
    "C08_server_unknown"
   ],
   "note": "Both for one database and for the whole server (SELECT included)."
  },
  {
   "property": "C09",
   "status": "proved",
   "theorems": [
    "C09_arity",
    "C09_lpop_refuted",
    "C09_rpop_refuted"
   ],
   "note": "All commands but LPOP and RPOP, for which the property is refuted."
  },
  {
   "property": "C10",
   "status": "proved",
   "theorems": [
    "C10_frame"
   ],
   "note": "For every command that returns."
  },
  {
   "property": "C11",
   "status": "proved",
   "theorems": [
    "C11_reads"
   ],
   "note": ""
  },
  {
   "property": "C12",
   "status": "proved",
   "theorems": [
    "C12_wrong_type",
    "C12_wrong_type_set",
    "C12_wrong_type_srandmember",
    "C12_lmove_refuted",
    "C12_silent_refuted",
    "C12_store_refuted",
    "C12_set_refuted",
    "C12_wrong_type_setop",
    "C12_wrong_type_store",
    "C12_wrong_type_smove",
    "C12_wrong_type_lmove",
    "C12_missing_refuted"
   ],
   "note": "44 typed single-key commands, SET and SRANDMEMBER in full; SINTER, SUNION, SDIFF with any key of another type; the STORE commands with such a first source; SMOVE and LMOVE with a source that exists and is not empty. The exceptions and violations named in the statement are shown by witnesses."
  },
  {
   "property": "C13",
   "status": "proved",
   "theorems": [
    "C13_deadline_has_value",
    "C13_invariant"
   ],
   "note": ""
  },
  {
   "property": "C14",
   "status": "proved",
   "theorems": [
    "C14_expired_invisible",
    "C14_commands",
    "C14_mget_refuted",
    "C14_sinter_refuted",
    "C14_persist_refuted",
    "C14_argument_error_refuted"
   ],
   "note": "All single-key commands but PERSIST; the exceptions named in the statement are refuted by witnesses."
  },
  {
   "property": "C15",
   "status": "proved",
   "theorems": [
    "C15_expire_ttl",
    "C15_ttl"
   ],
   "note": ""
  },
  {
   "property": "C16",
   "status": "proved",
   "theorems": [
    "C16_expire",
    "C16_expire_option",
    "C16_unknown_option",
    "C16_not_an_integer"
   ],
   "note": ""
  },
  {
   "property": "C17",
   "status": "proved",
   "theorems": [
    "C17_persist_forever",
    "C17_persist",
    "C17_reply_refuted"
   ],
   "note": "The reply for keys without deadline is refuted by witnesses."
  },
  {
   "property": "C18",
   "status": "proved",
   "theorems": [
    "C18_del",
    "C18_exists"
   ],
   "note": ""
  },
  {
   "property": "C19",
   "status": "proved",
   "theorems": [
    "C19_rename"
   ],
   "note": ""
  },
  {
   "property": "C20",
   "status": "proved",
   "theorems": [
    "C20_type"
   ],
   "note": ""
  },
  {
   "property": "C21",
   "status": "proved",
   "theorems": [
    "C21_keys"
   ],
   "note": "For databases of at most 2^44 keys."
  },
  {
   "property": "C22",
   "status": "proved",
   "theorems": [
    "C22_glob",
    "C22_terminates",
    "C22_crash",
    "C22_keys",
    "C22_total",
    "C22_exact",
    "C22_keys_exact",
    "C22_star_refuted",
    "C22_range_refuted",
    "C22_keys_refuted"
   ],
   "note": "Also: matching always ends, and crashes only on patterns ending in an open bracket expression and a dash. C22_total and C22_exact say for every pattern, well-formed or not, what it matches and where it panics; C22_keys_exact carries it to KEYS."
  },
  {
   "property": "C23",
   "status": "proved",
   "theorems": [
    "C23_set_get"
   ],
   "note": ""
  },
  {
   "property": "C24",
   "status": "proved",
   "theorems": [
    "C24_set",
    "C24_contradiction",
    "C24_unsupported",
    "C24_failed_nx_refuted",
    "C24_dangling_refuted"
   ],
   "note": "What the code does with every option; the Redis contract for failed NX is refuted by a witness."
  },
  {
   "property": "C25",
   "status": "proved",
   "theorems": [
    "C25_getrange",
    "C25_not_an_integer",
    "C25_max_int_refuted"
   ],
   "note": "The maximum integer as end is refuted by a witness."
  },
  {
   "property": "C26",
   "status": "proved",
   "theorems": [
    "C26_setrange",
    "C26_overwrite_keep",
    "C26_bad_offset",
    "C26_keep_refuted",
    "C26_huge_refuted"
   ],
   "note": "As implemented; the Redis contract (bytes after the written ones stay) is refuted by a witness."
  },
  {
   "property": "C27",
   "status": "proved",
   "theorems": [
    "C27_append",
    "C27_strlen",
    "C27_append_history"
   ],
   "note": ""
  },
  {
   "property": "C28",
   "status": "proved",
   "theorems": [
    "C28_modulo",
    "C28_incr",
    "C28_decr",
    "C28_incrby",
    "C28_decrby",
    "C28_bad_increment",
    "C28_exact",
    "C28_counter_history",
    "C28_incrbyfloat",
    "C28_overflow_refuted",
    "C28_missing_refuted"
   ],
   "note": "Overflow and missing keys are refuted by witnesses. Floating point is a parameter of the model."
  },
  {
   "property": "C29",
   "status": "proved",
   "theorems": [
    "C29_mset",
    "C29_mget"
   ],
   "note": ""
  },
  {
   "property": "C30",
   "status": "proved",
   "theorems": [
    "C30_setex",
    "C30_setnx"
   ],
   "note": ""
  },
  {
   "property": "C31",
   "status": "proved",
   "theorems": [
    "C31_hset",
    "C31_hmset",
    "C31_hdel",
    "C31_hget",
    "C31_hmget",
    "C31_hexists",
    "C31_hlen",
    "C31_hstrlen"
   ],
   "note": ""
  },
  {
   "property": "C32",
   "status": "proved",
   "theorems": [
    "C32_hgetall",
    "C32_hkeys",
    "C32_hvals",
    "C32_hrandfield",
    "C32_hrandfield_count",
    "C32_hrandfield_withvalues",
    "C32_huge_refuted",
    "C32_empty_refuted"
   ],
   "note": "Crashes on huge negative counts and empty hashes are shown by witnesses."
  },
  {
   "property": "C33",
   "status": "proved",
   "theorems": [
    "C33_hincrby",
    "C33_hincrby_not_an_integer",
    "C33_hincrbyfloat",
    "C33_hincrbyfloat_not_a_number",
    "C33_bad_increment_refuted"
   ],
   "note": ""
  },
  {
   "property": "C34",
   "status": "proved",
   "theorems": [
    "C34_hsetnx",
    "C34_hsetnx_refuted"
   ],
   "note": "As implemented; the Redis contract is refuted by a witness."
  },
  {
   "property": "C35",
   "status": "proved",
   "theorems": [
    "C35_lpush",
    "C35_rpush",
    "C35_lpushx",
    "C35_rpushx",
    "C35_lpop",
    "C35_rpop",
    "C35_lpop_one",
    "C35_rpop_one",
    "C35_lpop_count",
    "C35_rpop_count"
   ],
   "note": ""
  },
  {
   "property": "C36",
   "status": "proved",
   "theorems": [
    "C36_lrange",
    "C36_lindex",
    "C36_llen",
    "C36_lindex_min_refuted"
   ],
   "note": "LINDEX with the minimum integer crashes, shown by a witness."
  },
  {
   "property": "C37",
   "status": "proved",
   "theorems": [
    "C37_lset",
    "C37_ltrim",
    "C37_lrem",
    "C37_lset_min_refuted",
    "C37_ltrim_empty_refuted",
    "C37_lrem_min_refuted"
   ],
   "note": "Except for the minimum integer in LSET (crash) and LREM (removes nothing), shown by witnesses."
  },
  {
   "property": "C38",
   "status": "proved",
   "theorems": [
    "C38_before",
    "C38_after",
    "C38_unique",
    "C38_every_refuted",
    "C38_hang_refuted"
   ],
   "note": "As implemented, and equal to the Redis contract when the pivot occurs at most once; refuted otherwise by witnesses."
  },
  {
   "property": "C39",
   "status": "proved",
   "theorems": [
    "C39_lpos"
   ],
   "note": ""
  },
  {
   "property": "C40",
   "status": "proved",
   "theorems": [
    "C40_lmove",
    "C40_empty_refuted"
   ],
   "note": "The crash on an empty source is shown by a witness."
  },
  {
   "property": "C41",
   "status": "proved",
   "theorems": [
    "C41_methods",
    "C41_returns",
    "C41_histories",
    "C41_others",
    "C41_insert_after_refuted",
    "C41_trim_refuted",
    "C41_index_refuted"
   ],
   "note": "Pointer-level model of list_struct.go refines the sequence functions used by the list commands; loops take an iteration bound and the theorems hold for every large enough bound. Assumes fewer than 2^62 elements."
  },
  {
   "property": "C42",
   "status": "proved",
   "theorems": [
    "C42_sadd",
    "C42_srem",
    "C42_sismember",
    "C42_scard",
    "C42_smembers"
   ],
   "note": ""
  },
  {
   "property": "C43",
   "status": "proved",
   "theorems": [
    "C43_setop"
   ],
   "note": ""
  },
  {
   "property": "C44",
   "status": "proved",
   "theorems": [
    "C44_setopstore",
    "C44_missing_refuted",
    "C44_expired_refuted"
   ],
   "note": "SINTERSTORE with a missing source and expired sources refuted by witnesses."
  },
  {
   "property": "C45",
   "status": "proved",
   "theorems": [
    "C45_smove",
    "C45_missing_refuted"
   ],
   "note": "A missing destination refuted by a witness."
  },
  {
   "property": "C46",
   "status": "proved",
   "theorems": [
    "C46_spop",
    "C46_spop_count",
    "C46_srandmember",
    "C46_srandmember_count",
    "C46_srandmember_zero",
    "C46_empty_refuted",
    "C46_null_refuted",
    "C46_huge_refuted"
   ],
   "note": "The crash and the null reply are shown by witnesses."
  },
  {
   "property": "C47",
   "status": "proved",
   "theorems": [
    "C47_histories",
    "C47_kept",
    "C47_concurrent",
    "C47_quiescent",
    "C47_no_panic",
    "C47_leaves_refuted",
    "C47_srem_refuted",
    "C47_store_refuted",
    "C47_lmove_refuted",
    "C47_hincrby_refuted"
   ],
   "note": "Refuted by a witness for each of the seven commands concerned. For histories without them, sequential and concurrent, proved: no empty container outside an exclusive lock, and LTRIM, HRANDFIELD, SRANDMEMBER do not panic (the two latter with counts up to 2^43)."
  },
  {
   "property": "C48",
   "status": "proved",
   "theorems": [
    "C48_histories",
    "C48_operation",
    "C48_segments"
   ],
   "note": "One goroutine at a time. The segment mutexes are represented in the concurrent model by making each segment access one atomic step."
  },
  {
   "property": "C49",
   "status": "proved",
   "theorems": [
    "C49_select",
    "C49_select_refused",
    "C49_isolated",
    "C49_history",
    "C49_start",
    "C49_zero_refuted"
   ],
   "note": ""
  },
  {
   "property": "C50",
   "status": "proved",
   "theorems": [
    "C50_alone",
    "C50_shared_refuted"
   ],
   "note": "Refuted for two connections by a witness; holds for a single connection."
  },
  {
   "property": "C51",
   "status": "proved",
   "theorems": [
    "C51_no_deadlock",
    "C51_finishes",
    "C51_finite"
   ],
   "note": "Every reachable state of any clients on one database; readers wait behind announced writers as in sync.RWMutex. Also: no schedule advances forever, and an execution that cannot advance has all replies, or a died or endlessly looping command."
  },
  {
   "property": "C52",
   "status": "proved",
   "theorems": [
    "C52_one_writer",
    "C52_no_read_write",
    "C52_no_fatal",
    "C52_released",
    "C52_lock_discipline"
   ],
   "note": "Static lock discipline of every execution tree, and its meaning for concurrent executions: one writer per key, no read during a write (SETNX apart), no unlock of a free lock, all locks free at the end."
  },
  {
   "property": "C53",
   "status": "proved",
   "theorems": [
    "C53_serializable",
    "C53_outcome",
    "C53_linearizable",
    "C53_pieces",
    "C53_mget_refuted",
    "C53_exists_refuted"
   ],
   "note": "Every execution of any commands but KEYS is simulated step by step by one with atomic sections (reads that commands make outside sections may see a point inside another section). The commands with one section (all but KEYS, SETNX and DEL/EXISTS/MGET of several keys) are atomic while no deadline of a named key passes. The key counter, which only KEYS reads, is not part of the contents compared. MGET and EXISTS of several keys: counterexamples to atomicity; they and DEL are shown to equal their one-key pieces. The order found respects each client's order; real-time order between clients is part of C62."
  },
  {
   "property": "C54",
   "status": "proved",
   "theorems": [
    "C54_counters",
    "C54_replies"
   ],
   "note": "For any mix of INCR, DECR, INCRBY and DECRBY; also, the replies to n INCRs are exactly v+1..v+n."
  },
  {
   "property": "C55",
   "status": "proved",
   "theorems": [
    "C55_some_winner",
    "C55_present_loses",
    "C55_two_winners_refuted"
   ],
   "note": "Positive part for any clients whose commands are SETNX on the key or leave it alone (do not name it, and are not KEYS); the double win is shown by a concrete execution."
  },
  {
   "property": "C56",
   "status": "proved",
   "theorems": [
    "C56_kept",
    "C56_fresh_value_deleted_refuted"
   ],
   "note": "Every command that leaves the key alone, or neither removes keys nor sets a deadline before the limit; the removal of a fresh value is shown by a concrete execution."
  },
  {
   "property": "C57",
   "status": "proved",
   "theorems": [
    "C57_no_new_keys",
    "C57_keys_refuted",
    "C57_counter_refuted"
   ],
   "note": "Any other clients, in executions in which no step adds a key; patterns on which the matcher crashes (C22) are left out. Crashes shown by concrete executions. The example also shows that KEYS can list empty keys that do not exist."
  },
  {
   "property": "C58",
   "status": "proved",
   "theorems": [
    "C58_lines",
    "C58_words",
    "C58_white",
    "C58_loads",
    "C58_blank_end",
    "C58_faulty",
    "C58_all_lines",
    "C58_newline_at_end_refuted",
    "C58_bare_refuted"
   ],
   "note": "Complete classification of every file: good and last line not blank; good and last line blank (never returns); first faulty line a panic or an error. net.ParseIP is a parameter; read errors other than end of file are left out (the code returns no error for them)."
  },
  {
   "property": "C59",
   "status": "proved",
   "theorems": [
    "C59_no_new_deadline"
   ],
   "note": ""
  },
  {
   "property": "C60",
   "status": "proved",
   "theorems": [
    "C60_levels",
    "C60_unknown"
   ],
   "note": "Level names and the comparison; formatting and the log file are not modelled."
  },
  {
   "property": "C61",
   "status": "proved",
   "theorems": [
    "C61_locks",
    "C61_zero_refuted",
    "C61_negative_refuted"
   ],
   "note": "Ties the lock positions of the command model (lockpos) to the indices computed by the code."
  },
  {
   "property": "C62",
   "status": "proved",
   "theorems": [
    "C62_linearizable",
    "C62_order"
   ],
   "note": "Connections, the shared manager and several databases (Net.v) against the manager executing one command at a time (SpecNet.v). That each command takes effect between start and reply is the clause caught_up, at every moment of the execution. KEYS, SETNX and multi-key DEL, EXISTS, MGET are excluded: they are not linearizable (C53, C55-C57)."
  },
  {
   "property": "C63",
   "status": "proved",
   "theorems": [
    "C63_progress",
    "C63_finite"
   ],
   "note": "Deadlock freedom and termination of the concurrent server, all commands."
  },
  {
   "property": "C64",
   "status": "proved",
   "theorems": [
    "C64_any_order",
    "C64_any_prompt",
    "C64_order",
    "C64_prompt",
    "C64_finite"
   ],
   "note": "The two goroutines of a connection joined by the unbuffered channel (Pipe.v), with a client that may send or end at any moment. The executor may answer anything (C62 says what it answers). conn.Write is assumed to return. C64_any_*: the same for arbitrary bytes."
  },
  {
   "property": "C65",
   "status": "proved",
   "theorems": [
    "C65_ends",
    "C65_returned",
    "C65_never_returns",
    "C65_leak_refuted",
    "C65_crash_refuted"
   ],
   "note": "The positive part is full; the violations are C65_leak_refuted and C65_crash_refuted, and C65_never_returns says they cover every end other than io.EOF."
  },
  {
   "property": "C66",
   "status": "proved",
   "theorems": [
    "C66_contents",
    "C66_reply",
    "C66_possible",
    "C66_torn_refuted"
   ],
   "note": "The positive part is full; the violation is C66_torn_refuted."
  },
  {
   "property": "C67",
   "status": "proved",
   "theorems": [
    "C67_linearizable",
    "C67_frames"
   ],
   "note": "The whole process (World.v) composes Pipe.v and Net.v. The commands excluded from linearizability are those of C62; the frames and the order hold for all."
  },
  {
   "property": "C68",
   "status": "proved",
   "theorems": [
    "C68_any_served",
    "C68_served",
    "C68_no_spin",
    "C68_finite"
   ],
   "note": "Full, also for arbitrary bytes (C68_any_served); the exception for LINSERT is a fact about the code (C70_linsert_loops)."
  },
  {
   "property": "C69",
   "status": "proved",
   "theorems": [
    "C69_any_no_panic",
    "C69_kill_refuted",
    "C69_no_panic",
    "C69_exit",
    "C69_stops",
    "C69_final",
    "C69_outside",
    "C69_exit_answers_refuted",
    "C69_isolation_refuted"
   ],
   "note": "The positive part is full, also for arbitrary bytes (C69_any_no_panic); the violations are C69_exit_answers_refuted, C69_isolation_refuted and C69_kill_refuted."
  },
  {
   "property": "C70",
   "status": "proved",
   "theorems": [
    "C70_no_panic",
    "C70_no_loop",
    "C70_answers",
    "C70_exact",
    "C70_exact_loop",
    "C70_panicking",
    "C70_linsert_loops"
   ],
   "note": "Under interleavings the conditions on SET, LINDEX, LSET and SETRANGE are sufficient, and for the other eight names only a witness is given (C70_panicking). C70_exact and C70_exact_loop: for one command alone the panicking and looping cases are exactly those stated in SpecPanic.v."
  },
  {
   "property": "C71",
   "status": "proved",
   "theorems": [
    "C71_total",
    "C71_exact"
   ],
   "note": "Full: every stream is covered (C71_total) and the output is determined (C71_exact)."
  },
  {
   "property": "C72",
   "status": "proved",
   "theorems": [
    "C72_cases",
    "C72_config",
    "C72_serves",
    "C72_exits",
    "C72_panics",
    "C72_loops",
    "C72_settings",
    "C72_databases",
    "C72_int",
    "C72_int_usual",
    "C72_read_error_refuted",
    "C72_octal_refuted",
    "C72_level_refuted",
    "C72_numbers_refuted",
    "C72_newline_refuted"
   ],
   "note": "flag.Parse and strconv.ParseInt with base 0 are modelled from their documentation and source; the operating system's answers are a parameter. The positive part is full; the violations are the C72_*_refuted theorems."
  },
  {
   "property": "C73",
   "status": "proved",
   "theorems": [
    "C73_lines",
    "C73_all",
    "C73_ends",
    "C73_restart_refuted"
   ],
   "note": "The text and time of a message are arbitrary; a failed write is not modelled. The positive part is full; the violation is C73_restart_refuted."
  },
  {
   "property": "C74",
   "status": "proved",
   "theorems": [
    "C74_reference",
    "C74_history",
    "C74_determined",
    "C74_names",
    "C74_answered"
   ],
   "note": "One command at a time. The reference is SpecRef.v over the per-command specifications of Spec.v; GETRANGE of a string longer than a Go string can be is left open (C74_determined assumes there is none)."
  },
  {
   "property": "C75",
   "status": "proved",
   "theorems": [
    "C75_end_to_end",
    "C75_all_answered",
    "C75_commands"
   ],
   "note": "Composes C72, C71, C67/C68 and C74. The commands are those with a single point of effect and far deadlines (hypotheses of the theorem, as in C62); C76 covers all commands when they do not overlap."
  },
  {
   "property": "C76",
   "status": "proved",
   "theorems": [
    "C76_one_at_a_time",
    "C76_all_answered",
    "C76_alone"
   ],
   "note": "No restriction on commands or deadlines. The clock stands still while a command is in execution."
  },
  {
   "property": "C77",
   "status": "proved",
   "theorems": [
    "C77_received",
    "C77_one_reply",
    "C77_waits",
    "C77_others",
    "C77_finite",
    "C77_around",
    "C77_obeyed_refuted"
   ],
   "note": "Safety and progress over World.v; C77_obeyed_refuted shows that a client whose connection broke for writing is still obeyed. Accept errors are logged and retried, and change no state."
  },
  {
   "property": "C78",
   "status": "proved",
   "theorems": [
    "C78_end_to_end",
    "C78_all_answered",
    "C78_reply"
   ],
   "note": "C75 for all commands but KEYS and SETNX (hypotheses of the theorem; the latter two take effect at several points and have refuted witnesses in C53)."
  },
  {
   "property": "C79",
   "status": "proved",
   "theorems": [
    "C79_atomic",
    "C79_end",
    "C79_exclusive",
    "C79_no_fatal",
    "C79_finishes",
    "C79_finite"
   ],
   "note": "Justifies the one-step map accesses of Conc.v. The counter of keys is not protected by a common lock; the example shows that it misses a key when two are added to different segments at the same time."
  },
  {
   "property": "C80",
   "status": "proved",
   "theorems": [
    "C80_undisturbed",
    "C80_replies"
   ],
   "note": "One database (Conc.v). Without the hypothesis on deadlines a reading command removes the expired key under its exclusive lock (C14)."
  },
  {
   "property": "C81",
   "status": "proved",
   "theorems": [
    "C81_stable",
    "C81_writer_first",
    "C81_writer_second"
   ],
   "note": "One database (Conc.v). Justifies the modelling of stored objects by value (DESIGN.md, section 3)."
  },
  {
   "property": "C82",
   "status": "proved",
   "theorems": [
    "C82_values",
    "C82_tables",
    "C82_counter_refuted"
   ],
   "note": "Values: the locks of the keys (Conc.v). Go maps: the locks of the segments (Shard.v). The counter of keys is a race, shown by a witness; the other is the selected database of the server, see C50."
  },
  {
   "property": "C83",
   "status": "proved",
   "theorems": [
    "C83_goes_on",
    "C83_apart",
    "C83_rests",
    "C83_chain_refuted"
   ],
   "note": "Standing still is arbitrary: the theorem takes any set of clients, whatever they are doing, and lets the others run until they cannot advance. The chain of waiting clients is shown by a witness."
  },
  {
   "property": "C84",
   "status": "proved",
   "theorems": [
    "C84_served",
    "C84_other_databases",
    "C84_above",
    "C84_slow",
    "C84_for_ever"
   ],
   "note": "Refines C68 and C77, which say nothing about the other clients once an LINSERT is in its endless loop. Shared locks stand for waiting: the chain is through locks that both commands may take."
  },
  {
   "property": "C85",
   "status": "proved",
   "theorems": [
    "C85_alone",
    "C85_all_answered",
    "C85_same",
    "C85_same_in_the_end"
   ],
   "note": "C85_select_refuted shows why SELECT is excluded. GETRANGE is left out of the last part because the reference says nothing of strings longer than a Go string can be."
  },
  {
   "property": "C86",
   "status": "proved",
   "theorems": [
    "C86_old_view",
    "C86_any",
    "C86_served",
    "C86_finite",
    "C86_no_panic",
    "C86_frames",
    "C86_reference",
    "C86_all_answered"
   ],
   "note": "The old value may be any database: more than the memory model of Go allows."
  },
  {
   "property": "C87",
   "status": "proved",
   "theorems": [
    "C87_counts",
    "C87_both",
    "C87_served",
    "C87_finite",
    "C87_no_panic",
    "C87_frames",
    "C87_reference",
    "C87_all_answered"
   ],
   "note": "A load of the counter may give any number: more than the memory model of Go allows. KEYS is excluded; C87_keys_refuted shows why."
  },
  {
   "property": "C88",
   "status": "proved",
   "theorems": [
    "C88_served",
    "C88_console",
    "C88_pipelines",
    "C88_silent",
    "C88_other_databases",
    "C88_above",
    "C88_includes"
   ],
   "note": "Which goroutines write to the console is read off the code (SpecMute.v); C88_silent shows for the parser and the handler that no value that they would log is under way. C88_served holds for goroutines that stand still for any reason."
  },
  {
   "property": "C89",
   "status": "proved",
   "theorems": [
    "C89_written",
    "C89_removed",
    "C89_stays",
    "C89_origin",
    "C89_freed_refuted"
   ],
   "note": "C89_freed_refuted is the last sentence: a process with nothing to do keeps an expired key."
  },
  {
   "property": "C90",
   "status": "proved",
   "theorems": [
    "C90_invisible",
    "C90_never_revived",
    "C90_answered"
   ],
   "note": "For one command alone see C14; for writers beside the removal see C56. EXISTS, MGET and the set operations, which take several keys, may be sent but their replies are not part of the claim."
  },
  {
   "property": "C91",
   "status": "proved",
   "theorems": [
    "C91_stays",
    "C91_answered",
    "C91_get"
   ],
   "note": "Carries C80, where all clients only read one database, to the whole process beside writers of other keys. KEYS names every key and so is not among the commands whose reply is claimed."
  },
  {
   "property": "C92",
   "status": "proved",
   "theorems": [
    "C92_alone"
   ],
   "note": "Of one command and of the keys it uses, where C85 is about clients that share no keys at all; with C91 and C89 it can be applied command after command."
  }
 ]
}