{"id": "C01", "title": "Pipelined commands are delivered exactly and in order", "statement": "If a client sends any sequence of commands, each a RESP array of at least one (possibly null) bulk string with arbitrary binary contents, the server extracts exactly those commands, in that order, with byte-identical arguments, and then sees end of stream.", "quantifier": "every list of commands, every argument byte string (including CR, LF and NUL bytes), every length", "why_tests_cant": "the parser is a state machine over an unbounded byte stream; a test can only sample a few framings and contents", "anchors": ["resp/parser.go: ParseStream, parse, readline, parseArrayHeader, parseBulkStringHeader, parseBulkString", "resp/data.go: ToCommand"]}
{"id": "C02", "title": "Network fragmentation is invisible", "statement": "How TCP splits the bytes into reads never changes what the parser delivers: any two segmentations of the same byte stream give the same sequence of parsed values, errors and crashes.", "quantifier": "every byte stream and every way of cutting it into chunks", "why_tests_cant": "the number of segmentations is exponential in the length of the stream", "anchors": ["resp/parser.go: parse, readline"]}
{"id": "C03", "title": "A truncated stream never executes a command that was not completely received", "statement": "If the connection dies after any prefix of a valid command stream, the commands handed to execution are exactly the commands whose last byte was received; a partially received command is never executed, in whole or in part.", "quantifier": "every valid command stream and every crash point (byte offset) in it", "why_tests_cant": "crash points are every byte offset of every stream", "anchors": ["resp/parser.go: parse, readline", "server/handler.go: Handle"]}
{"id": "C04", "title": "Reply encoding round-trips", "statement": "Decoding the wire bytes of a reply with a RESP decoder yields the same reply and consumes exactly its bytes, so the replies to a pipeline can be split unambiguously; this covers null and empty bulk strings, null and empty arrays, every 64-bit integer and arbitrary binary bulk contents. The only exception is a simple-string or error reply whose text contains CR or LF. The fixed replies (OK, nil, the errors for a wrong number of arguments, a value that is no number, a wrong type, bad syntax, a missing key, an offset, an unknown command) are written as the bytes listed.", "quantifier": "every reply value whose simple-string/error texts are free of CR and LF, followed by every byte string", "why_tests_cant": "round-trip must hold for all values, not a sample", "anchors": ["resp/data.go: ToRedisFormat of SimpleString, SimpleError, Integer, BulkString, RedisArray"]}
{"id": "C05", "title": "One command, one well-formed reply frame", "statement": "Every command array that is executed without crashing produces exactly one RESP frame on the connection, in command order, and that frame cannot be confused with several frames. (The code breaks this when it echoes raw client bytes inside an error line: a command name or option containing CRLF injects extra frames.)", "quantifier": "every command, argument list and database state", "why_tests_cant": "needs a case analysis over every reply text the server can build from arbitrary client bytes", "anchors": ["server/handler.go: Handle, ExecCommand", "resp/data.go: SimpleError.ToRedisFormat", "memdb/strings.go: setString", "memdb/keys.go: expireKey", "memdb/list.go: lPosList"]}
{"id": "C06", "title": "No client byte stream can crash the server", "statement": "No sequence of bytes sent by a client may terminate the server process. (The code violates it: an empty array, a lone newline, an empty line, a non-RESP line inside an array, or an oversized bulk length panics.) For a stream of well-formed non-empty command arrays the protocol layer never crashes and never reports an error. Exactly the following streams crash the parser: those in which, after pieces that do not, there comes a bare LF, an empty line, or a bulk header whose length plus two exceeds 2^48.", "quantifier": "every byte stream", "why_tests_cant": "a fuzzing campaign samples streams; absence of crashes needs all of them", "anchors": ["resp/parser.go: readline, parseSingleLine", "server/handler.go: ExecCommand, Handle", "resp/data.go: ToCommand"]}
{"id": "C07", "title": "Decimal integers round-trip through the server", "statement": "Formatting any signed 64-bit integer and parsing it back with the server's integer parser gives the same integer, and the parser accepts exactly the optionally-signed decimal digit strings whose value fits in 64 bits.", "quantifier": "every 64-bit integer, every byte string", "why_tests_cant": "2^64 integers and unboundedly many strings", "anchors": ["memdb/strings.go: incrString (strconv.ParseInt/FormatInt)", "resp/parser.go: parseSingleLine", "resp/data.go: Integer.ToRedisFormat"]}
{"id": "C08", "title": "Command names are case-insensitive and unknown names are harmless", "statement": "Two command arrays that differ only in the ASCII letter case of the command name behave identically; a name that is not a supported command yields an error reply and leaves every database unchanged.", "quantifier": "every command name, argument list and database state", "why_tests_cant": "all spellings of all names in all states", "anchors": ["server/handler.go: ExecCommand", "memdb/command.go: CmdTable, RegisterCommand"]}
{"id": "C09", "title": "Wrong argument counts are rejected without side effects", "statement": "A command called with a number of arguments its grammar does not admit returns the arity error and changes nothing, not even lazily deleting an expired key. (LPOP and RPOP violate it: they accept surplus arguments.)", "quantifier": "every command of the table, every argument list of a wrong length, every database state", "why_tests_cant": "69 commands x unbounded argument lists x all states", "anchors": ["memdb/keys.go", "memdb/strings.go", "memdb/hash.go", "memdb/list.go", "memdb/set.go: the len(cmd) guards"]}
{"id": "C10", "title": "Commands only affect the keys they name", "statement": "Executing a command never changes the visible value or expiry of a key that is not one of its key arguments.", "quantifier": "every command, every argument list, every database state, every other key, every later instant", "why_tests_cant": "quantifies over all commands, states and bystander keys", "anchors": ["memdb/keys.go", "memdb/strings.go", "memdb/hash.go", "memdb/list.go", "memdb/set.go"]}
{"id": "C11", "title": "Read commands do not change anything observable", "statement": "GET, GETRANGE, STRLEN, MGET, EXISTS, TYPE, TTL, KEYS, PING, HGET, HMGET, HGETALL, HKEYS, HVALS, HLEN, HEXISTS, HSTRLEN, HRANDFIELD, LINDEX, LLEN, LRANGE, LPOS, SCARD, SISMEMBER, SMEMBERS, SRANDMEMBER, SINTER, SUNION and SDIFF leave the visible value and expiry of every key unchanged at every later instant.", "quantifier": "every read command, argument list and state", "why_tests_cant": "all states and arguments", "anchors": ["memdb/*.go: read executors", "memdb/memdb.go: DeleteExpiredKey"]}
{"id": "C12", "title": "Wrong-type operations fail and change nothing", "statement": "Applying a string, hash, list or set command to a live key holding another type returns an error and leaves the whole database visibly unchanged; so does SUNION, SINTER or SDIFF when any one of its keys holds another type. (SETNX, SETEX and MSET take keys of any type; MGET answers nil for a key that is not a string. Violations: LMOVE with a source of the wrong type and a missing destination creates an empty list; HSETNX, SRANDMEMBER with count 0, SMOVE to an expired destination and LMOVE or SMOVE from a missing source answer without error; a STORE command whose later operand has the wrong type empties its destination; SET with a dangling EX or PX crashes.)", "quantifier": "every typed command, every state with a key of another type", "why_tests_cant": "all commands x all states", "anchors": ["memdb/strings.go", "memdb/hash.go", "memdb/list.go: lMoveList", "memdb/set.go"]}
{"id": "C13", "title": "An expiry record always belongs to an existing key", "statement": "In every reachable state a key has an expiry deadline only if it has a value; hence a key that is deleted, popped empty, renamed away or expires and is later re-created never inherits an old deadline.", "quantifier": "every sequence of commands from an empty database with every clock", "why_tests_cant": "an inductive invariant over all histories", "anchors": ["memdb/memdb.go: SetExpire, DeleteExpire, DeleteExpiredKey", "memdb/keys.go: delKey, renameKey"]}
{"id": "C14", "title": "Expired keys are invisible", "statement": "Once the clock has passed a key's deadline, every single-key command other than PERSIST answers as if the key did not exist and leaves the same visible state as it would had the key not existed; only a command that would answer an argument error for a missing key may answer its missing-key reply instead, changing nothing. (MGET shortens its reply, SINTER/SUNION/SDIFF drop the key instead of treating it as empty, and PERSIST answers 0 instead of 1: those violate it.)", "quantifier": "every single-key command, every state, every clock reading past the deadline", "why_tests_cant": "needs all states and deadlines", "anchors": ["memdb/memdb.go: CheckExpire, DeleteExpiredKey", "memdb/strings.go: mGetString", "memdb/set.go: sInterSet"]}
{"id": "C15", "title": "EXPIRE and TTL agree with the clock", "statement": "After EXPIRE k n succeeds at time t, and until the key is modified, TTL k at time u returns t+n-u for every u up to t+n, the key is readable until t+n inclusive and invisible afterwards; TTL answers -1 for a live key without deadline and -2 for a missing or expired key.", "quantifier": "every key, value, n, clock readings", "why_tests_cant": "all instants and all states", "anchors": ["memdb/keys.go: expireKey, ttlKey", "memdb/memdb.go: CheckExpire, SetExpire"]}
{"id": "C16", "title": "EXPIRE options NX/XX/GT/LT", "statement": "EXPIRE with NX sets the deadline only if there was none, with XX only if there was one, with GT only if there was one and the new one is later, with LT only if there was one and the new one is earlier; it answers 1 exactly when it set the deadline and otherwise changes nothing; an unknown option is an error that changes nothing.", "quantifier": "every option spelling, key state and deadline", "why_tests_cant": "all states", "anchors": ["memdb/keys.go: expireKey"]}
{"id": "C17", "title": "PERSIST removes the deadline", "statement": "PERSIST on a live key removes its deadline and keeps its value; afterwards TTL answers -1 and the key never expires. (It also answers 1 for a key that has no deadline or does not exist.)", "quantifier": "every state and clock", "why_tests_cant": "all states", "anchors": ["memdb/keys.go: persistKey"]}
{"id": "C18", "title": "DEL and EXISTS count exactly", "statement": "EXISTS answers the number of its arguments (with repetition) that are live; DEL answers the number of distinct live keys among its arguments, and afterwards none of them is visible at any later time and every other key is unchanged.", "quantifier": "every argument list and state", "why_tests_cant": "all argument lists with repetitions, all mixes of expired/live/missing keys", "anchors": ["memdb/keys.go: delKey, existsKey"]}
{"id": "C19", "title": "RENAME moves value and deadline", "statement": "RENAME a b on a live key a makes b hold exactly a's old value and deadline (overwriting whatever b held, whatever its type or deadline), removes a (unless a = b) and changes nothing else; on a missing or expired a it is an error that changes nothing.", "quantifier": "every pair of keys (equal or not) and state", "why_tests_cant": "all states", "anchors": ["memdb/keys.go: renameKey"]}
{"id": "C20", "title": "TYPE reports the type of the stored value", "statement": "TYPE answers string, hash, list or set according to the live value and none for a missing or expired key.", "quantifier": "every state", "why_tests_cant": "all states", "anchors": ["memdb/keys.go: typeKey"]}
{"id": "C21", "title": "KEYS lists exactly the matching live keys", "statement": "With a pattern on which matching does not crash, KEYS returns each live key that matches the pattern exactly once, and nothing else.", "quantifier": "every pattern, state and map iteration order", "why_tests_cant": "all states and all hash-map iteration orders", "anchors": ["memdb/keys.go: keysKey", "memdb/concurrentMap.go: Keys", "util/util.go: PattenMatch"]}
{"id": "C22", "title": "Glob matching agrees with the documented pattern language", "statement": "For well-formed patterns in which each run of * is followed by the end of the pattern or an ordinary character, matching decides exactly the declarative semantics of ?, *, [abc], [a-z], [^...] and ordinary characters. (Violated outside that class: '*?' does not match 'a', and '[a-' crashes.) Every other pattern, however malformed, is read in a definite way, which decides exactly what it matches and on which strings the matcher panics; KEYS lists exactly the live keys that match.", "quantifier": "every pattern and every string", "why_tests_cant": "infinitely many pattern/string pairs", "anchors": ["util/util.go: PattenMatch"]}
{"id": "C23", "title": "Read your writes on strings", "statement": "After SET k v (without options) succeeds, GET k returns exactly v, byte for byte, after any sequence of commands that do not name k and at any later time; plain SET discards any previous deadline.", "quantifier": "every key, value, state and every sequence of intervening commands", "why_tests_cant": "unbounded histories", "anchors": ["memdb/strings.go: setString, getString"]}
{"id": "C24", "title": "SET options", "statement": "SET with NX stores only if the key is missing and with XX only if it exists, answering nil otherwise; GET makes it answer the old value; EX n and PX m give deadline now+n and now+m/1000 seconds; KEEPTTL keeps the deadline. A conditional SET that does not store should change nothing (the code violates this: it drops the key's deadline and can install a new one).", "quantifier": "every option combination, key state and clock", "why_tests_cant": "exponentially many option lists, all states", "anchors": ["memdb/strings.go: setString"]}
{"id": "C25", "title": "GETRANGE returns the requested substring", "statement": "GETRANGE k s e returns the bytes of the value from s to e inclusive with negative indices counted from the end and out-of-range indices clamped, empty when the range is empty or the key is missing, for every 64-bit s and every 64-bit e other than the maximum integer (for which the code wrongly returns the empty string).", "quantifier": "every value and every pair of 64-bit indices", "why_tests_cant": "2^128 index pairs", "anchors": ["memdb/strings.go: getRangeString"]}
{"id": "C26", "title": "SETRANGE overwrites at an offset", "statement": "SETRANGE k o v keeps the first o bytes of the old value (zero-padded up to o), places v at offset o, answers the new length and keeps the deadline. Redis also keeps the bytes after o+len(v); the code drops them.", "quantifier": "every value, offset and argument", "why_tests_cant": "all lengths and offsets", "anchors": ["memdb/strings.go: setRangeString"]}
{"id": "C27", "title": "APPEND and STRLEN", "statement": "APPEND concatenates to the current value (or creates the key), answers the resulting length and keeps the deadline; STRLEN answers the byte length of the value; a sequence of APPENDs yields the concatenation of all pieces in order.", "quantifier": "every state and every sequence of pieces", "why_tests_cant": "unbounded sequences", "anchors": ["memdb/strings.go: appendString, strLenString"]}
{"id": "C28", "title": "Counter commands add exactly", "statement": "INCR, DECR, INCRBY and DECRBY on a key holding a decimal 64-bit integer store and return the exact sum or difference whenever it fits in 64 bits; any sequence of them behaves like integer addition; a non-integer value is rejected without change. (Violations: overflow wraps around silently instead of failing, and a missing key answers 0 and stays missing.)", "quantifier": "every stored integer, increment and sequence of counter commands", "why_tests_cant": "2^64 values, unbounded sequences", "anchors": ["memdb/strings.go: incrString, incrByString, decrString, decrByString"]}
{"id": "C29", "title": "MSET and MGET", "statement": "MSET sets every named key to its value (the last one wins for repeated keys), clears their deadlines and changes nothing else; MGET of keys none of which is expired answers one element per key in order: the string, or nil if missing or not a string.", "quantifier": "every argument list and state", "why_tests_cant": "all argument lists with repetitions", "anchors": ["memdb/strings.go: mSetString, mGetString"]}
{"id": "C30", "title": "SETEX and SETNX", "statement": "SETEX stores the value with deadline now+seconds whatever the key held; SETNX stores the value without deadline and answers 1 if the key is missing or expired, and answers 0 and changes nothing otherwise.", "quantifier": "every state and clock", "why_tests_cant": "all states", "anchors": ["memdb/strings.go: setExString, setNxString"]}
{"id": "C31", "title": "A hash behaves like a finite map", "statement": "HSET/HMSET, HDEL, HGET, HMGET, HEXISTS, HLEN and HSTRLEN on a key behave as update, delete, lookup, domain test and size of one finite map; HSET answers the number of new fields and HDEL the number removed; removing the last field deletes the key.", "quantifier": "every state and every field/value list with repetitions", "why_tests_cant": "unbounded maps and argument lists", "anchors": ["memdb/hash.go", "memdb/hash_struct.go"]}
{"id": "C32", "title": "Hash enumerations are consistent", "statement": "HGETALL, HKEYS and HVALS return every field, value or pair of the hash exactly once, whatever order the runtime iterates maps in; HRANDFIELD returns fields of the hash: distinct and min(count,size) many for a non-negative count, exactly -count many for a negative count.", "quantifier": "every hash, every count and every map iteration order", "why_tests_cant": "map iteration order is random", "anchors": ["memdb/hash.go: hGetAllHash, hKeysHash, hValsHash, hRandFieldHash", "memdb/hash_struct.go: Keys, Values, Random, RandomWithValue"]}
{"id": "C33", "title": "HINCRBY adds exactly", "statement": "HINCRBY adds the increment to the field (a missing field counts as 0, a missing key is created) and returns the sum whenever it fits in 64 bits; a non-integer field value is rejected without changing it.", "quantifier": "every field value and increment", "why_tests_cant": "2^128 combinations", "anchors": ["memdb/hash.go: hIncrByHash", "memdb/hash_struct.go: IncrBy"]}
{"id": "C34", "title": "HSETNX sets a field only if it is missing", "statement": "HSETNX sets the field and answers 1 if the field does not exist, otherwise answers 0 and changes nothing. (The code violates it: it refuses whenever the key exists, even with the field missing or with a key of another type.) It never overwrites an existing field.", "quantifier": "every state", "why_tests_cant": "all states", "anchors": ["memdb/hash.go: hSetNxHash"]}
{"id": "C35", "title": "Push and pop form a deque", "statement": "LPUSH/RPUSH add their elements one by one at the head/tail and answer the new length; LPOP/RPOP remove and return from the head/tail, up to count elements; popping the last element deletes the key; LPUSHX/RPUSHX act only on existing lists.", "quantifier": "every list, element list and count", "why_tests_cant": "unbounded lists", "anchors": ["memdb/list.go", "memdb/list_struct.go: LPush, RPush, LPop, RPop"]}
{"id": "C36", "title": "List indexing, ranges and length", "statement": "LRANGE returns the elements between two inclusive indices (negative from the end, clamped), LINDEX the element at an index or nil, LLEN the length, for every 64-bit index other than the minimum integer in LINDEX (which crashes the server).", "quantifier": "every list and all 64-bit indices", "why_tests_cant": "all lists and 2^128 index pairs", "anchors": ["memdb/list.go: lRangeList, lIndexList, lLenList", "memdb/list_struct.go: Range, Index"]}
{"id": "C37", "title": "LSET, LTRIM and LREM", "statement": "LSET replaces exactly one element; LTRIM keeps exactly the elements LRANGE would return and deletes the key if none; LREM removes the first count (from the head), last |count| (from the tail) or all matching elements, keeps the order of the rest, answers the number removed and deletes the key if the list becomes empty. (With the minimum integer LSET crashes and LREM removes nothing; on an empty list left behind by LMOVE, LTRIM with a negative start and a non-negative end crashes.)", "quantifier": "every list, index and count", "why_tests_cant": "all lists and 64-bit counts", "anchors": ["memdb/list.go: lSetList, lTrimList, lRemList", "memdb/list_struct.go: Set, Trim, Remove"]}
{"id": "C38", "title": "LINSERT", "statement": "LINSERT inserts the element before or after the pivot, answers the new length, -1 if the pivot is absent and 0 if the key is missing. (Violations: it inserts at every occurrence of the pivot, and LINSERT AFTER with element equal to an occurring pivot never terminates.)", "quantifier": "every list, pivot and element", "why_tests_cant": "termination and all lists", "anchors": ["memdb/list.go: lInsertList", "memdb/list_struct.go: InsertBefore, InsertAfter"]}
{"id": "C39", "title": "LPOS", "statement": "LPOS with any combination of RANK, COUNT and MAXLEN returns the positions of the matches in scan order after skipping |RANK|-1 of them, among the first MAXLEN compared elements, at most COUNT of them (0 meaning all); a single position without COUNT; nil if there is none.", "quantifier": "every list, element and option values", "why_tests_cant": "all option combinations on all lists", "anchors": ["memdb/list.go: lPosList", "memdb/list_struct.go: Pos"]}
{"id": "C40", "title": "LMOVE moves one element atomically", "statement": "LMOVE between live non-empty lists (or onto the same list, or a missing destination) removes one element from the chosen end of the source and adds it at the chosen end of the destination, returns it, deletes the source if it becomes empty, and conserves all other elements. (It crashes the server on a source list that is empty, a state the code itself can reach.)", "quantifier": "every pair of lists, equal or different keys, both directions", "why_tests_cant": "all states", "anchors": ["memdb/list.go: lMoveList"]}
{"id": "C41", "title": "The linked list implements a sequence", "statement": "The pointer-based doubly linked list is always well formed (forward and backward chains agree, the length field is right), each operation on it has the effect of the corresponding operation on a plain sequence, and operations on one list leave every other list unchanged. (Exactly these calls do not return: Index and Set with the minimum integer and Trim of an empty list with a negative start and a non-negative end dereference nil; InsertAfter of a copy of a pivot that occurs never ends.)", "quantifier": "every sequence of list operations", "why_tests_cant": "heap shape invariant over all histories", "anchors": ["memdb/list_struct.go"]}
{"id": "C42", "title": "A set behaves like a finite set", "statement": "SADD, SREM, SISMEMBER, SCARD and SMEMBERS behave as insertion, deletion, membership, cardinality and enumeration (each member exactly once, any order) of one finite set; SADD/SREM answer the number of members actually added/removed.", "quantifier": "every state, argument lists with repetitions, every map iteration order", "why_tests_cant": "unbounded sets", "anchors": ["memdb/set.go", "memdb/set_struct.go"]}
{"id": "C43", "title": "Set algebra", "statement": "When none of the named keys is expired, SUNION, SINTER and SDIFF return exactly the union, intersection and difference (first minus the rest) of the named sets, missing keys counting as empty.", "quantifier": "every list of keys and state, every iteration order", "why_tests_cant": "all families of sets", "anchors": ["memdb/set.go: sUnionSet, sInterSet, sDiffSet", "memdb/set_struct.go: Union, Intersect, Difference"]}
{"id": "C44", "title": "Stored set algebra", "statement": "SUNIONSTORE, SINTERSTORE and SDIFFSTORE store in the destination (even when it is also a source) exactly what the corresponding command would return, clear its deadline and answer its cardinality. (Violations: SINTERSTORE ignores missing sources instead of producing the empty set; an expired source that was not yet removed is dropped from the list, and if every source is such a key the destination is left alone.)", "quantifier": "every key list, state and iteration order", "why_tests_cant": "all families of sets, aliasing of destination and sources", "anchors": ["memdb/set.go: sUnionStoreSet, sInterStoreSet, sDiffStoreSet"]}
{"id": "C45", "title": "SMOVE conserves members", "statement": "SMOVE between two existing sets moves a present member from source to destination and answers 1, or answers 0 and changes nothing if it is absent; source may equal destination; an emptied source key is deleted. (Violation: a missing destination is not created; the command answers 0.)", "quantifier": "every pair of sets, equal or different", "why_tests_cant": "all states", "anchors": ["memdb/set.go: sMoveSet", "memdb/set_struct.go: Move"]}
{"id": "C46", "title": "SPOP and SRANDMEMBER", "statement": "SPOP removes and returns distinct members, min(count,size) of them, and nothing else changes, deleting the key when emptied; SRANDMEMBER returns distinct members for a positive count and exactly -count members for a negative count and changes nothing. (Violations: SRANDMEMBER without count on an empty stored set crashes the server; a popped empty-string member is reported as nil.)", "quantifier": "every set, count and iteration order", "why_tests_cant": "random choice, all sets", "anchors": ["memdb/set.go: sPopSet, sRandMemberSet", "memdb/set_struct.go: Pop, Random"]}
{"id": "C47", "title": "No empty containers remain", "statement": "An empty list, hash or set is never observable as an existing key. (The code violates it in exactly seven commands: SREM of the last member, SINTERSTORE, SDIFFSTORE and SUNIONSTORE with an empty result, LMOVE from a key that is not a list, HINCRBY and HINCRBYFLOAT with an increment that is no number; such states then crash LMOVE, LTRIM, HRANDFIELD and SRANDMEMBER. Clients that use none of these seven never leave one, in any interleaving, and while one of their commands is running an empty container exists only under the exclusive lock of its key; LTRIM, HRANDFIELD and SRANDMEMBER then do not panic.)", "quantifier": "every command history and every interleaving of clients", "why_tests_cant": "reachability over all histories", "anchors": ["memdb/set.go: sRemSet, sInterStoreSet", "memdb/list.go: lMoveList", "memdb/hash.go: hIncrByHash"]}
{"id": "C48", "title": "The sharded hash map implements a map", "statement": "The segmented concurrent map behaves, for every sequence of Set, Get and Delete, like one finite map; its key counter equals the number of keys and Keys lists every key exactly once; segmenting by hash never hides or duplicates a key.", "quantifier": "every operation sequence, every segment count", "why_tests_cant": "all histories, all hash collisions", "anchors": ["memdb/concurrentMap.go", "util/util.go: Hash"]}
{"id": "C49", "title": "Databases are isolated and SELECT switches between them", "statement": "SELECT i with 0 <= i < N makes later commands act on database i and answers OK; other indices are refused without effect; commands never change a database that is not selected.", "quantifier": "every command history on one connection", "why_tests_cant": "all histories", "anchors": ["server/handler.go: NewManager, Select, ExecCommand"]}
{"id": "C50", "title": "SELECT is per connection", "statement": "A SELECT on one connection never changes the database another connection is using. (The code violates it: all connections share one selected database.)", "quantifier": "every interleaving of two connections", "why_tests_cant": "interleavings", "anchors": ["server/handler.go: Manager, Handle, Select", "server/server.go: Start"]}
{"id": "C51", "title": "No deadlock between concurrent commands", "statement": "With any number of clients running any commands concurrently, the server never reaches a state in which some command is unfinished and every unfinished command waits for a lock, even though readers wait behind waiting writers.", "quantifier": "every number of clients, every command mix, every schedule", "why_tests_cant": "unbounded schedules", "anchors": ["memdb/locks.go", "memdb/memdb.go: DeleteExpiredKey", "memdb/*.go executors"]}
{"id": "C52", "title": "Every write to a key happens under its exclusive lock and every lock is released", "statement": "In every execution of every command, a key's value or deadline is modified only while the exclusive lock guarding it is held, stored objects are read only while it is held in some mode (except the existence check of SETNX), no lock is acquired twice, the locks acquired are those of keys that the command names (KEYS: any), and all locks are released when the command returns.", "quantifier": "every command, every argument list, every response of the shared state", "why_tests_cant": "all paths of all commands", "anchors": ["memdb/locks.go", "memdb/*.go executors"]}
{"id": "C53", "title": "Locked sections are serializable", "statement": "For every interleaving of any commands other than KEYS (which takes no lock), the database contents and replies are those of an execution in which every lock-protected section runs atomically, in the order in which the sections complete. In particular, while no deadline of a key they name passes, all commands but KEYS, SETNX and DEL/EXISTS/MGET of several keys are atomic: MSET, RENAME, LMOVE, SMOVE and the STORE commands included, contents and replies are those of the commands run one at a time in an order that respects each client's. (DEL, EXISTS and MGET of several keys lock each key separately and are not atomic: they behave like one such command per key, sent one after the other, whose replies are added up or put together.)", "quantifier": "every schedule of every set of concurrent commands", "why_tests_cant": "exponentially many interleavings", "anchors": ["memdb/locks.go: MLock, MUnLock", "memdb/*.go executors"]}
{"id": "C54", "title": "Concurrent increments are never lost", "statement": "If clients concurrently run INCR, DECR, INCRBY and DECRBY on a key holding an integer and having no deadline, then after all finish the key holds the initial value plus all increments (modulo 64-bit wrap-around) in every schedule; the replies to n concurrent INCRs on v are v+1, ..., v+n, each once.", "quantifier": "every n and every schedule", "why_tests_cant": "all interleavings", "anchors": ["memdb/strings.go: incrString", "memdb/locks.go"]}
{"id": "C55", "title": "Concurrent SETNX on a missing key", "statement": "Among concurrent SETNX commands on the same missing key at least one answers 1, all answer 0 or 1, and in the end the key holds the value of one that answered 1; once the key is there (without deadline) all answer 0. (Violation of the usual guarantee: more than one may answer 1, because the existence check is outside the lock.)", "quantifier": "every schedule", "why_tests_cant": "needs a specific interleaving", "anchors": ["memdb/strings.go: setNxString"]}
{"id": "C56", "title": "Lazy expiry removes no key whose deadline has not passed", "statement": "While no deadline of a key passes, no interleaving of commands that do not themselves remove it makes the key disappear: lazy deletion never removes it. (Violation of the stronger guarantee: a value written after a key expired can be removed by the lazy deletion of the old value, because the expiry check and the deletion are not atomic.)", "quantifier": "every schedule", "why_tests_cant": "needs a specific interleaving", "anchors": ["memdb/memdb.go: CheckExpire, DeleteExpiredKey"]}
{"id": "C57", "title": "KEYS beside concurrent writers", "statement": "In an execution in which no key is added, KEYS does not crash, whatever the other clients do. (Violations: beside a command that adds a key it can crash, because the result array is sized before the segments are scanned; two concurrent additions can corrupt the key counter so that every later KEYS crashes.)", "quantifier": "every schedule", "why_tests_cant": "needs a specific interleaving", "anchors": ["memdb/concurrentMap.go: Keys, Set"]}
{"id": "C58", "title": "Configuration file parsing", "statement": "Loading a configuration file whose last line is not blank and whose recognised directives have a well-formed argument terminates, and each recognised directive sets its field, the last occurrence winning; the first directive with a bad argument makes loading fail. (Violations: a file whose last line is blank, i.e. any file ending in a newline, makes loading loop forever; a directive without argument is a panic.)", "quantifier": "every file", "why_tests_cant": "termination on all inputs", "anchors": ["config/config.go: ParseConfFile"]}
{"id": "C59", "title": "Deadlines come only from the commands meant to set them", "statement": "Only SET, SETEX, EXPIRE and RENAME can give a key a deadline it did not have: after any other command a live key with a deadline had the same deadline before it.", "quantifier": "every command with every argument list, every well-formed database, every time", "why_tests_cant": "A test sees a few commands on a few keys; the claim is about every argument list of every other command on every state.", "anchors": ["memdb/memdb.go:SetExpire", "memdb/strings.go:setString", "memdb/strings.go:setEXString", "memdb/keys.go:expireKey", "memdb/keys.go:renameKey"]}
{"id": "C60", "title": "Log level filter", "statement": "With a configured level of the table exactly the messages of that level and above are written; any other configured name means info.", "quantifier": "every configured name, every message level", "why_tests_cant": "A test checks a few names and levels.", "anchors": ["logger/logger.go: Init, Debug, Info, Warning, Panic, Error"]}
{"id": "C61", "title": "Lock table of a database", "statement": "For every positive configured number of segments (below the maximum) a database is created with twice as many locks, and every key has a lock in range. (Violations: the configured number is not checked; 0 makes every lock operation panic, negative numbers make startup panic.)", "quantifier": "every segment number, every key", "why_tests_cant": "Indexing must be in range for every key and every size.", "anchors": ["memdb/locks.go: NewLocksManager, GetKeyPos", "memdb/memdb.go: NewMemDb", "config/config.go: ParseConfFile"]}
{"id": "C62", "title": "The whole server is linearizable", "statement": "However the handlers of any number of connections interleave, including SELECT on the database pointer that all of them share, every execution corresponds to one in which the manager executes one command at a time, in one go, on the database selected then: each command takes effect between its start and its reply, every reply and the final contents agree, and each connection is answered in the order of its commands. (For the commands other than KEYS, SETNX, and DEL, EXISTS and MGET of several keys, and while no deadline of a key they name passes; the exceptions are refuted in C53 and C55-C57.)", "quantifier": "every number of connections and databases, all command sequences, all schedules", "why_tests_cant": "A command may be started on one database and run after another connection has selected a second one; no set of test runs covers the interleavings.", "anchors": ["server/handler.go: Manager.Handle, ExecCommand, Select", "memdb/memdb.go: MemDb.ExecCommand"]}
{"id": "C63", "title": "The server does not get stuck", "statement": "Whenever no connection can advance, every connection has all its replies, unless a command has panicked or is in an endless loop; and no execution advances forever.", "quantifier": "every number of connections and databases, all command sequences, all schedules", "why_tests_cant": "A deadlock needs one particular interleaving of the connections.", "anchors": ["server/handler.go: Manager.Handle, ExecCommand", "memdb/locks.go"]}
{"id": "C64", "title": "Commands are executed in order and as soon as they have arrived", "statement": "While the client is still sending, and however it, the parser goroutine and the handler goroutine take turns, the commands handed to the executor are the first ones of the client's; when the goroutines rest, every command that has arrived completely has been executed and answered, without waiting for a further byte; and they do come to rest. For arbitrary bytes: exactly the commands before the first malformed piece are executed.", "quantifier": "all command sequences, every cutting into pieces, every interleaving of client, parser and handler", "why_tests_cant": "Where a piece ends and which goroutine runs next are not under a test's control.", "anchors": ["resp/parser.go: ParseStream, parse, readline", "server/handler.go: Manager.Handle"]}
{"id": "C65", "title": "No goroutine outlives its connection", "statement": "When a client has sent whole commands and ended its stream in order, both goroutines of the connection return. Once the handler has returned, the parser has returned if the error received was io.EOF, and never returns otherwise. (Violations: a client that disappears within an argument, a reset, or a malformed line leave a parser goroutine blocked forever; such a parser can still crash the process.)", "quantifier": "all streams, all interleavings", "why_tests_cant": "A leaked goroutine is not visible to a client, and needs a particular way of ending.", "anchors": ["resp/parser.go: parse", "server/handler.go: Manager.Handle"]}
{"id": "C66", "title": "A string reply is the value the key had", "statement": "String values are held in byte slices that share backing arrays with arguments and pending replies, and are appended to in place. The bytes stored under every key are nevertheless those computed by the operations on plain values, and the slice handed out as a reply shows the value at the time of the command even when it is written to the connection later, as long as no SETRANGE has started inside a value since. (Violation: a SETRANGE between GET and the writing of its reply makes GET answer a value the key never had.)", "quantifier": "all histories of operations on string values, all capacities of the arrays, all keys and values", "why_tests_cant": "Whether append works in place depends on capacities chosen by the runtime, and the damage needs another connection between two instructions.", "anchors": ["memdb/strings.go: setRangeString, getRangeString, getString, appendString", "server/handler.go: Manager.Handle"]}
{"id": "C67", "title": "The bytes clients receive are those of one command at a time", "statement": "For the whole process (accepting connections, a parser and a handler per connection, executors interleaved on the shared databases): at every moment of every execution, the bytes written to each client are the encoded replies, in order, to the first of its own commands, as given by some execution in which commands run one at a time and without interruption, up to the command in execution; each command is executed after it has been received; and all bytes written form a sequence of RESP frames, one per command, when no quoted argument contains CR or LF.", "quantifier": "all numbers of clients, all commands (linearizability: those with a single point of effect, as in C62; frames: all), all cuttings of the bytes, all interleavings", "why_tests_cant": "It speaks about all interleavings of clients, accept loop, parsers, handlers and executors.", "anchors": ["server/server.go: Start", "server/handler.go: Manager.Handle", "resp/parser.go: ParseStream", "resp/data.go: ToBytes"]}
{"id": "C68", "title": "Every client is served", "statement": "Whenever the process runs and none of its goroutines can do anything, no signal is waiting and every client that has connected has been accepted, has a handler, and has replies to all the commands it has sent, unless an executor is in an endless loop, which only LINSERT can be; and unless clients keep acting, the goroutines do come to rest. For arbitrary bytes: every client has been answered all commands before its first malformed piece.", "quantifier": "all numbers of clients, all byte streams that encode commands, all interleavings", "why_tests_cant": "Deadlocks and lost wake-ups need particular schedules of many goroutines.", "anchors": ["server/server.go: Start", "server/handler.go: Manager.Handle", "memdb/locks.go"]}
{"id": "C69", "title": "How the process ends", "statement": "If all clients send encodings of panic-free commands (C70), the process does not panic; it exits only after a signal has arrived, and after a signal it does not come to rest before it has ended; after its end nothing happens. (Violations: on a signal it does not wait for the commands in execution, so a command can have taken effect and never be answered; one client's malformed bytes end the process for all.) For arbitrary bytes: it panics only if a client's bytes crash the parser, or hold an empty or null array or an array with a nil element, or a command that may panic. (Violated in general: in every state any new client can end the process with two bytes.)", "quantifier": "all numbers of clients, all states, all interleavings", "why_tests_cant": "It needs a signal or a malformed input at a particular moment of another client's command.", "anchors": ["server/server.go: Start", "main.go: main"]}
{"id": "C70", "title": "Which commands can panic, which can loop", "statement": "Commands other than KEYS, SET, SETRANGE, HRANDFIELD, LINDEX, LSET, LMOVE, LTRIM, SRANDMEMBER, SINTER, SDIFF and SUNION never panic, with any arguments, in any reachable state, beside any other commands; SET does not unless its last option is EX or PX, LINDEX and LSET do not unless the index is the least integer, SETRANGE does not for offsets up to 2^48. Commands other than LINSERT never loop forever. All others answer. Each of the twelve does panic, and LINSERT does loop, in some case. For one command alone the conditions are exact: for each of the twelve, the arguments and visible states in which it panics are stated, and so is when LINSERT loops; in no other case does a command panic or loop.", "quantifier": "all commands, argument lists, reachable states and interleavings", "why_tests_cant": "The absence of a panic on all inputs and interleavings cannot be tested.", "anchors": ["memdb/command.go", "memdb/keys.go", "memdb/strings.go", "memdb/hash.go", "memdb/list.go", "memdb/set.go"]}
{"id": "C71", "title": "Every byte stream has a determined meaning", "statement": "For every byte stream the parser's output (the values and errors it sends, in order, and how it ends) is the one a grammar of pieces (values, array headers, malformed pieces, fatal input) assigns to it: nothing is skipped, resynchronised or reported differently, whatever the fragmentation.", "quantifier": "every byte stream, every fragmentation", "why_tests_cant": "malformed input is where streams are least sampled: the grammar covers every sequence of well-formed and malformed pieces, including arrays interrupted by other arrays", "anchors": ["resp/parser.go: parse, readline, parseSingleLine, parseBulkStringHeader, parseArrayHeader"]}
{"id": "C72", "title": "Process start", "statement": "For every command line, every configuration file and every answer of the operating system the start of the process has exactly one outcome: it serves, exits with status 0, 1 or 2, panics, or reads the configuration file for ever, and which of them is determined by a grammar of the command line, the meaning of the file (C58) and the system's answers. If it serves, each setting is the one of the last directive for it in the file, else of the last flag for it, else the default, and there is at least one database. (Violations: a file that cannot be read is taken for an empty one; a number with a leading zero means different things as a flag and in the file; impossible numbers of databases or segments are not refused but panic, and some negative ones pass; a file ending in a newline is read for ever.)", "quantifier": "every argument list, every file, every answer of the system", "why_tests_cant": "The combinations of flag syntax, file contents, failures and numeric limits are unbounded; non-termination cannot be observed by a test.", "anchors": ["main.go: main", "config/config.go: initFlag, Init, ParseConfFile", "logger/logger.go: Init", "server/server.go: Start", "server/handler.go: NewManager"]}
{"id": "C73", "title": "Log lines are never mixed", "statement": "Whatever the interleaving of the goroutines that log, the log file begins at every moment with whole lines, each carrying the level, position and text of one and the same call, the lines of a goroutine being its admitted calls in order, none twice; logging cannot deadlock, comes to an end, and then every call the level admits is in the file. (Violation: the file is opened without appending or truncating, so a restart overwrites the beginning of the previous log and leaves the rest of it behind.)", "quantifier": "every number of goroutines, every sequence of calls of each, every interleaving, every level, every previous content", "why_tests_cant": "A mixed-up prefix needs a particular interleaving of two goroutines.", "anchors": ["logger/logger.go: Init, setPrefix, Debug, Info, Warning, Panic, Error"]}
{"id": "C74", "title": "A complete reference of all commands", "statement": "For every command name, every list of arguments (well formed or not), every reachable state and every time: the command is answered with exactly the reply and leaves exactly the visible keyspace that a reference table assigns to it, or it panics or loops in one of the cases of C70, never otherwise. The reference is a state machine on visible keys and keys whose deadline has passed but which have not been collected; it covers all refusals, option grammars and the corner cases in which a collected and an uncollected key are told apart. It determines the reply and the visible keyspace uniquely, except for the eleven commands that depend on chance or on the order of a map. The same holds for all histories.", "quantifier": "every command name, argument list, state, time and history", "why_tests_cant": "The differences lie in combinations of wrong arguments, expired keys, wrong types and extreme integers that no finite table of cases covers.", "anchors": ["server/handler.go: ExecCommand", "memdb/command.go", "memdb/keys.go", "memdb/strings.go", "memdb/hash.go", "memdb/list.go", "memdb/set.go", "memdb/list_struct.go", "memdb/hash_struct.go", "memdb/set_struct.go"]}
{"id": "C75", "title": "End to end: from the command line and the bytes of the clients to the bytes of the replies", "statement": "Started with any command line on any system, if the process comes to serve, then for every execution with any number of clients that send arbitrary bytes in arbitrary pieces (whose commands have a single point of effect and set only deadlines that do not pass), there is one growing history of the commands in these bytes that a server working by the reference of C74, with SELECT, goes through from the configured number of empty databases; each client's part of the history are its commands in its order, a command is in it by the time it is answered and not before it is received, the bytes written to a client are exactly the encodings of the replies in the history (but for the command in execution), and the databases have the contents of the reference. When the goroutines rest, every client has been sent the replies to all its commands and nothing else.", "quantifier": "every command line and system, every number of clients, all bytes, every way to cut them up, every interleaving of all goroutines, every moment", "why_tests_cant": "It is the composition of start, parser, handlers, locks and commands over all interleavings and inputs.", "anchors": ["main.go", "config/config.go", "server/server.go", "server/handler.go", "resp/parser.go", "resp/data.go", "memdb/"]}
{"id": "C76", "title": "Commands that do not overlap are all answered as the reference says", "statement": "For every execution of the process, with any number of clients sending arbitrary bytes, in which no handler receives a command while another client's command is without reply (in particular always if there is a single client), and the clock moves only between commands: every command whatever, including KEYS, SETNX and those of many keys, with all deadlines passing or not, gets the reply of the reference of C74 at its time, the bytes written to each client are the encodings of these replies, in its order, and between commands the databases are exactly those of the reference. When the goroutines rest, every client has the replies to all its commands.", "quantifier": "all bytes, every way to cut them up, every interleaving of parsers and handlers, every clock, all commands and arguments, every moment", "why_tests_cant": "Expiry, arbitrary bytes and the order in which parsers, handlers and clients act combine without bound.", "anchors": ["server/server.go", "server/handler.go", "resp/parser.go", "resp/data.go", "memdb/"]}
{"id": "C77", "title": "Slow, silent and broken clients", "statement": "conn.Write may wait for the client, hand over a reply in parts, or fail. For every execution of the process with any number of clients: what arrives at a client is a prefix of the encodings of the replies to its commands, complete but for what still waits, unless its connection broke; at most the rest of one reply waits per client, and while it waits that client's handler begins no other command and holds no lock; when the goroutines rest, every client's handler either waits for that very client to read or has executed all commands the client sent, with all replies arrived if the connection is not broken, so no client waits because another does not read; the goroutines come to rest. (Commands received after conn.Write has failed are still executed.)", "quantifier": "every number of clients, all bytes, every interleaving of all goroutines, every way in which the operating system takes the bytes of the replies, every break", "why_tests_cant": "Slow readers, partial writes and breaks combine with all interleavings of parsers, handlers and executors.", "anchors": ["server/handler.go: Handle", "server/server.go: Start", "resp/parser.go"]}
{"id": "C78", "title": "End to end, with overlapping commands of any number of keys", "statement": "Started with any command line on any system, if the process comes to serve, then for every execution with any number of clients that send arbitrary bytes in arbitrary pieces (whose commands are any but KEYS and SETNX and set only deadlines that do not pass), the server keeps pace with one that works by the reference of C74 from the configured number of empty databases: there each command is executed on the database selected when it starts, in one go, except that DEL, EXISTS and MGET go key by key and commands of other clients may come between the keys, and replies with the sum or the concatenation of the replies for the single keys. At every moment both have the same contents, have answered the same commands of each client with the same replies, whose encodings are the bytes written to the client, and execute the same command of each client on the same database; these are the first of the client's commands, in its order. When the goroutines rest, every client has been sent the replies to all its commands and nothing else.", "quantifier": "every command line and system, every number of clients, all bytes, every way to cut them up, every interleaving of all goroutines, every moment", "why_tests_cant": "Commands of several keys overlap with others in all ways over all inputs; a test sees few interleavings.", "anchors": ["main.go", "config/config.go", "server/server.go", "server/handler.go", "resp/parser.go", "resp/data.go", "memdb/keys.go: delKey, existsKey", "memdb/strings.go: mGetString", "memdb/"]}
{"id": "C79", "title": "Accesses to the segmented maps are atomic", "statement": "A database keeps its keys and its deadlines in two maps that are cut into segments, each with its own Go map and lock. Set, Delete, Get and Keys take the lock of a segment, look the key up, change the counter and the Go map and release the lock, step by step, while other clients do the same and hold their own locks of keys. In every such execution with any number of clients and commands: at each moment it looks like an execution in which each access is one step (same goroutines, locks of keys, deadlines, counter and values; a value that a Set is just adding counts as stored), and at the end the replies and the contents are those of one; two goroutines are in the same segment at once only if both only read; no segment lock is released that is not held; the locks of segments and keys together lead to no deadlock and no endless execution; at the end all locks are free.", "quantifier": "every number of segments, every database, every number of clients and all their commands, every interleaving of the steps", "why_tests_cant": "The windows between the steps of a map access are a few instructions wide; Go's own race detection is dynamic and sees the interleavings that happen.", "anchors": ["memdb/concurrentMap.go: Set, Delete, Get, Keys", "memdb/memdb.go", "memdb/locks.go"]}
{"id": "C80", "title": "Reading commands do not disturb each other", "statement": "While no deadline passes, any number of clients whose commands only read (EXISTS, KEYS, TTL, TYPE, GET, GETRANGE, MGET, STRLEN, the reading commands of hashes, lists and sets, PING, unknown names) leave the database as it is, never wait for a lock and never ask for one exclusively, in every interleaving; each reply is one that the command gives when it is executed alone.", "quantifier": "every database, every number of clients and all their reading commands, every interleaving", "why_tests_cant": "That nobody ever waits is a statement about all schedules; a test that finishes does not show it.", "anchors": ["memdb/memdb.go: DeleteExpiredKey, CheckExpire", "memdb/locks.go: RLock, MRLock", "memdb/keys.go", "memdb/strings.go", "memdb/hash.go", "memdb/list.go", "memdb/set.go"]}
{"id": "C81", "title": "A stored value does not change while a command works on it", "statement": "Hashes, lists, sets and strings are handed to the commands by reference. From the moment a command fetches a value until it releases a lock or itself updates the value, the value does not change, whatever the other clients do. While a command that updates a value works on it (from fetching it to releasing a lock), no other command fetches or updates it; and whoever fetches a value while another command works on it does not update it. (SETNX, which only asks whether the key exists, does so without a lock and is left out.)", "quantifier": "every database, every number of clients and all their commands, every interleaving, every key", "why_tests_cant": "A value that changes under a reader shows only in rare schedules; the race detector sees only those it runs.", "anchors": ["memdb/hash.go", "memdb/list.go", "memdb/set.go", "memdb/strings.go", "memdb/locks.go: Lock, RLock, MLock, MRLock"]}
{"id": "C82", "title": "Conflicting accesses are ordered by the locks", "statement": "Whenever two goroutines use the Go map of the same segment of a database, or the value of the same key, one after the other, and one of the two writes, then in between the first gives back the lock that protects it and the second takes that lock afterwards, one of the two holding it exclusively. In the terms of the Go memory model these accesses are not a data race. (SETNX, which asks whether the key exists without its lock, is left out. Violation: the counter of keys of a map is changed under the locks of different segments, so two goroutines can write it at the same time.)", "quantifier": "every database, every number of clients and all their commands, every execution, any two moments of it", "why_tests_cant": "The race detector sees only the executions it runs; a missing ordering shows as a wrong value only on some machines.", "anchors": ["memdb/concurrentMap.go: Set, Get, Delete, Keys, count", "memdb/locks.go: Lock, RLock, MLock, MRLock", "memdb/hash.go", "memdb/list.go", "memdb/set.go", "memdb/strings.go"]}
{"id": "C83", "title": "A command that never ends holds up only those who need its locks", "statement": "While some goroutines stand still for ever (in LINSERT's endless loop, dead, or blocked in the print of LMOVE), all clients that share no lock with them get all their replies. More generally so do all clients whose keys have their locks in a set that the goroutines standing still do not use and that other commands leave only towards lower positions: in particular all whose keys have locks above those of the goroutines standing still. (Violation of what one would expect: a client can be held up for ever although it names no key with a lock of theirs, when another command holds the lock of its key while it waits for one of theirs.)", "quantifier": "every database, every number of clients and all their commands, every set of goroutines that stand still, every execution", "why_tests_cant": "That everyone else gets through holds only if no chain of waiting goroutines leads to the ones that stand still; such chains depend on the schedule and on the hashes of the keys.", "anchors": ["memdb/locks.go: Lock, RLock, MLock, MRLock, getSortedLocks", "memdb/list_struct.go: InsertAfter", "memdb/list.go: lInsertList, lMoveList"]}
{"id": "C84", "title": "Beside an endless LINSERT the process goes on", "statement": "When the goroutines of the process can do nothing more, every client that has connected has a handler, and either all commands in its bytes have been executed and answered, or its command is in execution and waits, directly or through other commands in execution on the same database, each waiting for a lock that the next one uses at a higher position than the one before, for an LINSERT in an endless loop (or is that LINSERT). So clients on other databases, and clients that need only locks above those of LINSERTs, are served. The same holds when clients are slow to take their replies. (Violation: the client whose LINSERT is in the endless loop is never answered again, whatever happens.)", "quantifier": "every state of every execution of the process, with any number of clients and databases, any bytes from the clients", "why_tests_cant": "It is a statement on every order of the goroutines' steps and on every state in which they all wait.", "anchors": ["server/handler.go: Handle, ExecCommand", "memdb/locks.go: Lock, RLock, MLock, MRLock", "memdb/list_struct.go: InsertAfter, InsertBefore"]}
{"id": "C85", "title": "Clients that share no keys do not disturb each other", "statement": "Take a client that uses no key that another client uses; nobody sends KEYS, SETNX or SELECT, and deadlines are past all times the clock shows. At every moment the replies written to the client are those of the reference (C74) run on this client's commands alone, from an empty database, each command in one go, DEL, EXISTS and MGET of several keys too; between its commands the entries of its keys are those of that run; and when the goroutines have come to rest all its commands have been answered so. If moreover no command of the client depends on chance, on the order of a map or on the clock, then what it is sent depends on nothing but its own commands: in two executions with different other clients, times, speeds and configurations, the bytes written to it in the one are the beginning of those in the other, and equal once both have come to rest. (Violation: SELECT of one client changes the database of all, so a client that shares no key with anybody can still lose sight of its values.)", "quantifier": "every execution of the process (for the last part every two), any number of clients and databases, any commands but those excluded", "why_tests_cant": "It compares all interleavings of all other clients' commands, step by step, with an execution without them.", "anchors": ["server/handler.go: Handle, ExecCommand", "memdb/memdb.go", "memdb/locks.go", "memdb/keys.go: delKey, existsKey", "memdb/strings.go: mGetString"]}
{"id": "C86", "title": "An old view of the selected database does what a SELECT could do", "statement": "The pointer to the selected database is written by SELECT and read at the start of every other command by other goroutines without a lock, so a handler may see an older value. Let every handler, at every command, see any of the databases. Then every state of an execution is a state of an execution in which all see the last value written and in which some more clients have each sent one SELECT of an existing database and got OK: same replies, same bytes, same databases, locks, selection and fate of the process. So the goroutines come to rest, all clients are served, nothing panics for a new reason, what is written are RESP frames, and replies and contents are those of the reference server of C78 beside which some more SELECTs were executed.", "quantifier": "every execution of the process with any number of such old views, any number of clients and databases, any bytes", "why_tests_cant": "On common hardware an old value is hardly ever seen; and it is a claim on all executions.", "anchors": ["server/handler.go: ExecCommand, Select", "server/server.go: Start"]}
{"id": "C87", "title": "The counter of a map has no influence but on KEYS", "statement": "The field count of db.dict is changed by goroutines that hold the locks of different segments and read without a lock, so a load may give an old value. Let every load give any number, and let every command see any selected database (C86). If no client asks for KEYS, every state of an execution is, but for the counters, a state of an execution with old views of the selected database only, and so, beside some more clients who have sent one SELECT each, of an execution in which every goroutine sees the last value written: same keys, values and deadlines, same locks, same replies and bytes, same fate of the process. So the goroutines come to rest, all clients are served, nothing panics for a new reason, what is written are RESP frames, and replies and contents are those of the reference server of C78 beside which some more SELECTs were executed. KEYS is different: with an old count it may panic (witness).", "quantifier": "every execution of the process with any number of such loads and old views, any number of clients and databases, any bytes without a KEYS command", "why_tests_cant": "Lost updates and old values of the counter are rare and depend on hardware and timing; and it is a claim on all executions.", "anchors": ["memdb/concurrentMap.go: Set, Delete, Keys", "server/handler.go: ExecCommand"]}
{"id": "C88", "title": "A console that takes no more output holds up only those who write to it and those behind their locks", "statement": "Let any goroutines of the process stand still wherever they are, as in a write to a console or log that takes no more output: parsers and handlers of some clients, the main goroutine, executors of some commands. When nobody else can do anything, every other client with a handler has all the commands it has sent executed and the replies written, or its command in execution waits, through a chain of shared locks on the same database, each higher than the one before, for an executor that stands still or for an LINSERT in an endless loop. The console is written to only for clients without a handler, for clients that have sent something else than arrays or have ended their connection, and by LMOVE to the right end of a list, which holds the locks of both its keys: so if the console stops, clients who send commands are served unless they wait so for such an LMOVE.", "quantifier": "every state of every execution of the process, any number of clients and databases, any bytes, any set of goroutines that stand still", "why_tests_cant": "A test stops one goroutine at one place and looks at some clients for some time; the claim is on all places, all sets of goroutines and all clients.", "anchors": ["memdb/list.go: lMoveList", "server/server.go: Start", "server/handler.go: Handle", "resp/parser.go: parse", "logger/logger.go"]}
{"id": "C89", "title": "Only a command that names a key, or KEYS, changes what is stored under it; time alone frees nothing", "statement": "In every step of every execution of the process, a value or a deadline appears under a key of a database only while a command is in execution there that names the key and is not a reading one, and a value or deadline is removed only while a command is in execution there that names the key, or KEYS. So over any stretch of an execution what is stored under a key stays as it is, even when its deadline has passed and whatever the clock shows, unless some client has sent a command that names it, or KEYS; and whatever is stored that was not there before, some client has sent a command for. In particular an expired key stays in memory until it is asked for.", "quantifier": "every step and every stretch of every execution of the process, any number of clients and databases, any bytes, any clock, all commands", "why_tests_cant": "A test looks at some keys after some commands; the claim is that no interleaving of any commands touches a key that none of them names.", "anchors": ["memdb/memdb.go: DeleteExpiredKey", "memdb/keys.go: keysKey", "memdb/concurrentMap.go", "server/handler.go: ExecCommand"]}
{"id": "C90", "title": "An expired key stays invisible however its readers run beside each other", "statement": "Suppose the deadline of a key has passed, no command on the key is in execution, and from then on only reading commands are sent for it, by any clients; other keys may be written, and KEYS may be asked. Then each of the 22 reading commands with one key (GET, GETRANGE, STRLEN, TTL, TYPE, the readers of hashes, lists and sets) answers as if the key were missing, or with an error on its arguments, in whatever order the steps of the commands fall; and at every moment the key still has its passed deadline or has neither value nor deadline, so it never comes back without a deadline. As long as no SELECT is sent, this is what all clients are answered. Each of the commands looks at the deadline without the lock of the key, and then removes value and deadline itself under the lock.", "quantifier": "every execution of the process, any number of clients, databases and keys, any bytes, any clock past the deadline", "why_tests_cant": "The removal by one reader can fall between any two steps of another; a test hits a few of these orders.", "anchors": ["memdb/memdb.go: CheckExpire, DeleteExpiredKey", "memdb/strings.go", "memdb/keys.go: ttlKey, typeKey", "memdb/hash.go", "memdb/list.go", "memdb/set.go"]}
{"id": "C91", "title": "Keys that are only read keep their values, and every reply about them is that of the command alone, whatever happens to the other keys", "statement": "Take any keys of a database that have no deadline, or one that does not pass, at a moment when no command on them is in execution; and suppose that from then on only reading commands are sent for them, by any clients, while any commands may be sent for other keys, which may expire too. Then the keys keep their values and deadlines, and as long as no SELECT is sent every reply to a command all of whose keys are among them, MGET, EXISTS and the set operations included, is one that the command gives when it is executed alone on the database as it was.", "quantifier": "every execution of the process, any number of clients and databases, any finite set of keys, any bytes, any clock", "why_tests_cant": "The claim is that no interleaving with writers of other keys, some behind the same lock or in the same table, disturbs a reader; a test hits a few interleavings.", "anchors": ["memdb/concurrentMap.go", "memdb/locks.go", "memdb/memdb.go: CheckExpire, DeleteExpiredKey", "memdb/strings.go: mGetString", "memdb/set.go", "server/handler.go: ExecCommand"]}
{"id": "C92", "title": "A command that has its keys to itself while it is executed acts as if it were alone", "statement": "If, from the beginning of the execution of a command to its return, no other client has sent a command that names one of its keys (KEYS names all), then its reply is one that it gives when executed alone on the database as it was at the beginning, and afterwards its keys hold what that execution alone leaves under them, values and deadlines, whatever the other clients do with other keys meanwhile.", "quantifier": "every execution of the process, every command that has keys, any number of clients and databases, any bytes, any clock", "why_tests_cant": "Other commands share locks, map segments and the counter with it in any interleaving; a test hits a few.", "anchors": ["memdb/concurrentMap.go", "memdb/locks.go", "memdb/command.go", "server/handler.go: ExecCommand"]}
