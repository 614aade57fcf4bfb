{"id": "C01", "title": "A read returns what was written", "statement": "After cache.Set(k,v) acknowledges, Get(k) returns exactly the bytes v, as long as no later call names k.", "quantifier": "all cache states, all keys, all byte strings v, all later histories that do not name k", "why_tests_cant": "The value space is all byte strings; only a few spellings (leading zeros, exponents, hex floats, 20-digit integers) behave differently and a sample misses them.", "anchors": ["cache/cachestring.go:Set", "cache/cachestring.go:Get", "cache/cachestring.go:tryInt64", "cache/cachestring.go:fmtString"]}
{"id": "C02", "title": "The stored text is a function of the written text only", "statement": "What Get(k) returns after Set(k,v) on a key without a time-to-live depends on v alone: it is v itself unless v is a Go integer or float literal, in which case it is the canonical rendering of that number; canonical int64 decimals come back unchanged.", "quantifier": "all states, all keys, all byte strings v", "why_tests_cant": "Needs every byte string, including all numeric spellings, not a sample.", "anchors": ["cache/cachestring.go:Set", "cache/cachestring.go:Get", "cache/cachestring.go:tryInt64", "cache/cachestring.go:fmtString"]}
{"id": "C03", "title": "Calls on one key never disturb another key", "statement": "No sequence of string, hash or delete calls that name only keys different from k changes what Get(k), StrLen(k), GetRange(k,..), HGet(k,..) or HLen(k) returns at any instant.", "quantifier": "all states reachable by any history, all keys, all call sequences not naming k", "why_tests_cant": "Quantifies over all histories; aliasing or a shared entry would only show up in particular interleavings of keys.", "anchors": ["cache/cachestring.go", "cache/cachehash.go", "cache/cachedb.go", "cache/cacheutil.go"]}
{"id": "C04", "title": "An expired key is never readable (single caller)", "statement": "If a key was given a deadline and the clock is strictly past it, then Get, StrLen, GetRange, GetSet and MGet treat the key as absent.", "quantifier": "all states, all keys, all clock values past the deadline", "why_tests_cant": "Every deadline/clock combination, including the exact boundary instant.", "anchors": ["cache/cacheutil.go:expired", "cache/cacheutil.go:get", "cache/cachestring.go:Get", "cache/cachestring.go:MGet"]}
{"id": "C05", "title": "A key never expires early", "statement": "A value stored by SetEX/PSetEX with a positive, non-overflowing duration is returned by Get at every instant up to and including the deadline, however many reads or calls on other keys happen in between.", "quantifier": "all states, keys, values, positive durations that fit in an int64 of nanoseconds, all later histories not naming the key before the deadline", "why_tests_cant": "All interleavings of reads and other-key calls and all clock values.", "anchors": ["cache/cachestring.go:SetEX", "cache/cachestring.go:PSetEX", "cache/cacheutil.go:expires", "cache/cacheutil.go:expired"]}
{"id": "C06", "title": "A plain Set removes the time-to-live", "statement": "After Set(k,v) the key has no deadline left: Get(k) returns v at every later time (Redis SET semantics).", "quantifier": "all states, keys, values and later clock values", "why_tests_cant": "The failure needs a particular order of SetEX, Set and clock advance.", "anchors": ["cache/cachestring.go:Set", "cache/cachestring.go:SetEX", "cache/cacheutil.go:expired"]}
{"id": "C07", "title": "A Set acknowledged after expiry is not lost", "statement": "If a key has expired and the caller then sets it, the acknowledged value is readable immediately afterwards.", "quantifier": "all states, keys, values, clock values past the old deadline", "why_tests_cant": "Depends on whether the expired entry was already purged, i.e. on the whole history.", "anchors": ["cache/cachestring.go:Set", "cache/cacheutil.go:expired"]}
{"id": "C08", "title": "SetNX stores exactly when the key is absent", "statement": "SetNX(k,v) returns 1 and stores v iff k has no live value; otherwise it returns 0 and changes nothing.", "quantifier": "all states, keys, values, clock values", "why_tests_cant": "Absence by expiry depends on the history and clock.", "anchors": ["cache/cachestring.go:SetNX"]}
{"id": "C09", "title": "GetSet swaps", "statement": "GetSet(k,v) returns what Get(k) would have returned just before and stores v as Set would.", "quantifier": "all states, keys, values", "why_tests_cant": "All prior states and value kinds.", "anchors": ["cache/cachestring.go:GetSet"]}
{"id": "C10", "title": "Append concatenates and reports the new length", "statement": "After Append(k,v), Get(k) is the old value followed by v, and the returned number is the length of what Get now returns.", "quantifier": "all states, keys, byte strings", "why_tests_cant": "The concatenation may become a numeric literal; only particular splits expose the re-rendering.", "anchors": ["cache/cachestring.go:Append"]}
{"id": "C11", "title": "SetRange overwrites in place with zero padding", "statement": "After SetRange(k,pos,r) with pos>=0 the byte at each index i is r[i-pos] inside the written window, the old byte outside it, and NUL in any gap; the returned length is max(len(old),pos+len(r)) and Get returns that string.", "quantifier": "all states, keys, offsets >= 0, replacement strings", "why_tests_cant": "All offsets relative to all lengths.", "anchors": ["cache/cachestring.go:SetRange"]}
{"id": "C12", "title": "SetRange rejects negative offsets without side effects", "statement": "SetRange with a negative offset returns the out-of-range error and leaves every later answer of the cache unchanged.", "quantifier": "all states, keys, negative offsets, strings", "why_tests_cant": "All states.", "anchors": ["cache/cachestring.go:SetRange"]}
{"id": "C13", "title": "GetRange returns exactly the requested slice", "statement": "GetRange(k,start,end) returns the bytes whose index i satisfies s<=i<=e and 0<=i<len, where negative bounds count from the end; it never fails on a string value and is the empty string for an absent key.", "quantifier": "all states, keys and all int64 start/end", "why_tests_cant": "All combinations of signs, lengths and extreme int64 bounds.", "anchors": ["cache/cachestring.go:GetRange"]}
{"id": "C14", "title": "StrLen agrees with Get", "statement": "StrLen(k) is the length of what Get(k) returns, 0 for an absent key, and the wrong-type error exactly when Get gives the wrong-type error.", "quantifier": "all states and keys", "why_tests_cant": "All value kinds and expiry states.", "anchors": ["cache/cachestring.go:StrLen", "cache/cachestring.go:Get"]}
{"id": "C15", "title": "IncrBy adds and returns the sum", "statement": "On a key holding an int64 n, IncrBy(k,d) returns n+d whenever that fits in an int64, Get(k) then shows that decimal; on an absent key it returns d.", "quantifier": "all states, keys, n, d in int64", "why_tests_cant": "All int64 pairs.", "anchors": ["cache/cachestring.go:IncrBy", "cache/cachestring.go:incrBy"]}
{"id": "C16", "title": "Counter overflow is refused", "statement": "IncrBy/DecrBy never silently wrap: if the mathematical result does not fit an int64 an error is returned and the counter is unchanged.", "quantifier": "all int64 counters and deltas", "why_tests_cant": "Boundary pairs only.", "anchors": ["cache/cachestring.go:incrBy", "cache/cachestring.go:DecrBy"]}
{"id": "C17", "title": "Counter histories sum up", "statement": "After any sequence of Incr/IncrBy/Decr/DecrBy on a key holding an integer, the key holds the initial value plus the sum of the deltas (modulo 2^64), and each call returned the running total.", "quantifier": "all initial values and all delta sequences of any length", "why_tests_cant": "Unbounded sequences.", "anchors": ["cache/cachestring.go:Incr", "cache/cachestring.go:IncrBy", "cache/cachestring.go:Decr", "cache/cachestring.go:DecrBy"]}
{"id": "C18", "title": "Counting on non-integers fails cleanly", "statement": "IncrBy on a key holding a float, text or hash returns the wrong-type error and leaves the cache unchanged.", "quantifier": "all states with such a value, all deltas", "why_tests_cant": "All value kinds.", "anchors": ["cache/cachestring.go:incrBy"]}
{"id": "C19", "title": "IncrByFloat works on any integer counter", "statement": "IncrByFloat(k,f) succeeds on every key whose value reads as an integer.", "quantifier": "all states, keys, floats", "why_tests_cant": "Depends on how the counter was created (Set or Incr).", "anchors": ["cache/cachestring.go:IncrByFloat", "cache/cachestring.go:incrBy"]}
{"id": "C20", "title": "Incrementing an expired counter starts from zero", "statement": "IncrBy on a key past its deadline behaves as on an absent key.", "quantifier": "all states, keys, deltas, clocks past the deadline", "why_tests_cant": "History and clock dependent.", "anchors": ["cache/cachestring.go:incrBy"]}
{"id": "C21", "title": "MSet is the same as setting each pair, in any order", "statement": "For any map, and for any iteration order the runtime picks, MSet leaves the cache in the same state: every listed key holds its value, every other key is untouched.", "quantifier": "all states, all finite maps, all iteration orders", "why_tests_cant": "Go map iteration order is randomised; all orders must agree.", "anchors": ["cache/cachestring.go:MSet"]}
{"id": "C22", "title": "MSetNX is all or nothing", "statement": "MSetNX stores either every pair or none.", "quantifier": "all states and maps", "why_tests_cant": "Needs a mix of present and absent keys.", "anchors": ["cache/cachestring.go:MSetNX"]}
{"id": "C23", "title": "MSetNX never overwrites and counts what it stored", "statement": "MSetNX leaves every already stored key unchanged, stores every other listed key and returns the number stored, for every iteration order.", "quantifier": "all states, maps, iteration orders", "why_tests_cant": "All orders and all subsets of present keys.", "anchors": ["cache/cachestring.go:MSetNX"]}
{"id": "C24", "title": "MGet is Get, position by position", "statement": "MGet(keys) has one slot per requested key, in order, duplicates included; slot i is what Get(keys[i]) returns.", "quantifier": "all states and key lists of any length", "why_tests_cant": "Unbounded lists, duplicates, expiry in the middle.", "anchors": ["cache/cachestring.go:MGet"]}
{"id": "C25", "title": "Del removes the key and its deadline", "statement": "After Del(k) the key is absent at every time and a new value stored under it has no deadline; Del returns 1 iff the key was readable; other keys are untouched.", "quantifier": "all states and keys", "why_tests_cant": "All expiry states.", "anchors": ["cache/cachedb.go:Del"]}
{"id": "C26", "title": "Exists counts live keys", "statement": "Exists(keys) returns how many of the listed keys are currently readable (counting repeats).", "quantifier": "all states, key lists, clocks", "why_tests_cant": "Expired but unpurged keys depend on history.", "anchors": ["cache/cachedb.go:Exists"]}
{"id": "C27", "title": "Type tells hashes from strings", "statement": "Type returns none for an absent key, hash for a key created by the hash calls and string otherwise.", "quantifier": "all states and keys", "why_tests_cant": "All value kinds.", "anchors": ["cache/cachedb.go:Type"]}
{"id": "C28", "title": "Flush empties the cache", "statement": "After Flush every key is absent and nothing set later inherits an old deadline.", "quantifier": "all states and keys", "why_tests_cant": "All states.", "anchors": ["cache/cachedb.go:Flush"]}
{"id": "C29", "title": "The background sweep removes only expired keys", "statement": "A sweep by the timer started with Cron leaves every unexpired key readable.", "quantifier": "all states and clocks", "why_tests_cant": "Needs a populated cache with mixed deadlines and a running ticker.", "anchors": ["cache/cachecron.go:cronExpire"]}
{"id": "C30", "title": "Time-to-live arithmetic", "statement": "SetEX(k,v,n) makes the key expire n seconds after the call for every positive n; non-positive n leaves no deadline.", "quantifier": "all int64 n", "why_tests_cant": "Overflow of n*1e9 at extreme n.", "anchors": ["cache/cachestring.go:SetEX", "cache/cacheutil.go:expires"]}
{"id": "C31", "title": "Errors leave the cache unchanged", "statement": "A string call that returns the wrong-type error has not changed the cache.", "quantifier": "all states, all string calls", "why_tests_cant": "All value kinds per call.", "anchors": ["cache/cachestring.go"]}
{"id": "C32", "title": "Only formattable values are ever stored", "statement": "In every reachable state each key holds text, an integer, a float or a hash, so the string readers fail only on hashes.", "quantifier": "all histories", "why_tests_cant": "Induction over histories.", "anchors": ["cache/cachestring.go", "cache/cachehash.go"]}
{"id": "C33", "title": "Reads are pure for every observer", "statement": "Get, StrLen, GetRange, MGet and Type never change what any later call returns.", "quantifier": "all states, all reads, all later histories of string and hash calls", "why_tests_cant": "Reads do delete expired entries internally; harmlessness is a statement about all later histories.", "anchors": ["cache/cachestring.go", "cache/cacheutil.go"]}
{"id": "C34", "title": "HGet returns what HSet stored", "statement": "After HSet(k,f,v) on an absent or hash key without deadline, HGet(k,f) returns v (canonical rendering for numeric v) and every other field is unchanged; HSet returns 1 iff the field was new.", "quantifier": "all states, keys, fields, values", "why_tests_cant": "All field maps.", "anchors": ["cache/cachehash.go:HSet", "cache/cachehash.go:HGet"]}
{"id": "C35", "title": "HLen is the number of fields", "statement": "HLen(k) equals the number of distinct fields readable by HGet in every reachable state.", "quantifier": "all histories", "why_tests_cant": "Counter kept separately from the map; needs all histories.", "anchors": ["cache/cachehash.go:HLen", "cache/cachehash.go:HExists", "cache/cachehash.go:HDel", "cache/cachehash.go:HSet"]}
{"id": "C36", "title": "HExists is a pure query", "statement": "HExists(k,f) returns 1 iff HGet finds the field and changes nothing.", "quantifier": "all states", "why_tests_cant": "All states and later observations.", "anchors": ["cache/cachehash.go:HExists"]}
{"id": "C37", "title": "HDel removes exactly the listed fields", "statement": "HDel(k,fs) removes every listed field, keeps the others, and returns the number of distinct listed fields that were present.", "quantifier": "all states and field lists with repeats", "why_tests_cant": "Unbounded lists with duplicates.", "anchors": ["cache/cachehash.go:HDel"]}
{"id": "C38", "title": "A hash with no fields is gone", "statement": "After deleting the last field the key no longer exists (Redis semantics).", "quantifier": "all hashes", "why_tests_cant": "Multi-step.", "anchors": ["cache/cachehash.go:HDel", "cache/cachedb.go:Exists"]}
{"id": "C39", "title": "HIncrBy stores the sum it returns", "statement": "HIncrBy(k,f,d) returns old+d and HGet(k,f) then shows that number.", "quantifier": "all states, integers, deltas", "why_tests_cant": "All integer pairs.", "anchors": ["cache/cachehash.go:HIncrBy"]}
{"id": "C40", "title": "HSetNX never overwrites", "statement": "HSetNX returns 1 and stores the exact text iff the field was absent, else returns 0 and changes nothing.", "quantifier": "all states", "why_tests_cant": "All states.", "anchors": ["cache/cachehash.go:HSetNX"]}
{"id": "C41", "title": "HMSet then HMGet", "statement": "HMSet stores every pair regardless of iteration order and returns the number of new fields; HMGet answers position by position like HGet.", "quantifier": "all states, maps, orders, field lists", "why_tests_cant": "Iteration order randomised; unbounded lists.", "anchors": ["cache/cachehash.go:HMSet", "cache/cachehash.go:HMGet"]}
{"id": "C42", "title": "HKeys lists every field exactly once", "statement": "HKeys(k) is a duplicate-free enumeration of the fields, empty for an absent key.", "quantifier": "all states", "why_tests_cant": "All maps, absent keys included.", "anchors": ["cache/cachehash.go:HKeys"]}
{"id": "C43", "title": "HVals lists every value", "statement": "HVals(k) has one entry per field, the rendering HGet gives.", "quantifier": "all states", "why_tests_cant": "Depends on value kinds.", "anchors": ["cache/cachehash.go:HVals"]}
{"id": "C44", "title": "HGetAll returns the whole hash", "statement": "HGetAll(k) maps every field to what HGet returns; empty for an absent key.", "quantifier": "all states", "why_tests_cant": "All maps.", "anchors": ["cache/cachehash.go:HGetAll"]}
{"id": "C45", "title": "Hash calls on a string key fail cleanly", "statement": "Every hash call on a live non-hash key returns the wrong-type error and changes nothing.", "quantifier": "all states, all hash calls", "why_tests_cant": "All calls and kinds.", "anchors": ["cache/cachehash.go:getHashEntry"]}
{"id": "C46", "title": "HStrLen agrees with HGet", "statement": "HStrLen(k,f) is the length of what HGet(k,f) returns and 0 when absent.", "quantifier": "all states", "why_tests_cant": "All kinds.", "anchors": ["cache/cachehash.go:HStrLen"]}
{"id": "C47", "title": "Lock-protected calls are serializable", "statement": "Any concurrent execution of Set, SetNX, SetEX, PSetEX, GetSet, Append, SetRange, Incr*, Decr*, Del and Flush from any number of goroutines produces the same results and final cache as running them one after another in some order.", "quantifier": "all numbers of goroutines, all programs, all schedules", "why_tests_cant": "Exponentially many schedules.", "anchors": ["cache/cachestring.go", "cache/cachedb.go", "cache/cache.go:Cache"]}
{"id": "C48", "title": "Concurrent increments are never lost", "statement": "If any number of goroutines call IncrBy on one integer key in any interleaving, then when all have returned the key holds the initial value plus the sum of all deltas (mod 2^64).", "quantifier": "all numbers of goroutines, deltas and schedules", "why_tests_cant": "All schedules.", "anchors": ["cache/cachestring.go:IncrBy"]}
{"id": "C49", "title": "Concurrent readers never see an expired value", "statement": "A Get that starts after the deadline has passed does not return the value, whatever other readers do.", "quantifier": "all schedules of concurrent readers", "why_tests_cant": "Needs a precise interleaving of two readers.", "anchors": ["cache/cachestring.go:Get", "cache/cacheutil.go:expired", "cache/cacheutil.go:get"]}
{"id": "C50", "title": "Concurrent HSet calls are not lost", "statement": "When two HSet calls to different fields of one key have both returned, both fields are present.", "quantifier": "all schedules", "why_tests_cant": "Needs both calls to find the key absent.", "anchors": ["cache/cachehash.go:HSet"]}
{"id": "C51", "title": "A value stored with a fresh deadline survives concurrent readers", "statement": "When SetEX has returned and its deadline has not passed, the value is readable, whatever MGet or Type calls ran concurrently.", "quantifier": "all schedules", "why_tests_cant": "Needs a reader paused between its expiry check and its delete.", "anchors": ["cache/cachestring.go:MGet", "cache/cachedb.go:Type", "cache/cacheutil.go:expired"]}
{"id": "C52", "title": "MSet is atomic", "statement": "No concurrent reader observes some but not all pairs of one MSet call.", "quantifier": "all schedules", "why_tests_cant": "Schedule dependent.", "anchors": ["cache/cachestring.go:MSet"]}
{"id": "C53", "title": "Cache calls never deadlock", "statement": "In every reachable configuration of goroutines running cache calls, some unfinished goroutine can take a step, and no finished call leaves the lock held.", "quantifier": "all schedules and numbers of goroutines", "why_tests_cant": "All schedules.", "anchors": ["cache/cache.go:Cache", "cache/cachestring.go"]}
{"id": "C54", "title": "Integers survive text conversion", "statement": "Every int64 written as decimal text parses back to itself, and two different int64 have different text.", "quantifier": "all int64", "why_tests_cant": "2^64 values.", "anchors": ["cache/cachestring.go:tryInt64", "cache/cachestring.go:fmtString"]}
{"id": "C55", "title": "Requests carry arbitrary bytes", "statement": "The bytes sent for any command decode, by the RESP grammar, to exactly the argument list given, whatever bytes the arguments contain, and consume exactly those bytes.", "quantifier": "all argument lists of arbitrary byte strings, any following bytes", "why_tests_cant": "All byte strings including CR/LF and protocol markers.", "anchors": ["redis/redis.go:ConvertToMessage", "redis/protocol.go:Serialize"]}
{"id": "C56", "title": "RESP encoding is unambiguous", "statement": "No two different well-formed messages have encodings such that one is a prefix of the other.", "quantifier": "all pairs of well-formed messages", "why_tests_cant": "Pairs of unbounded trees.", "anchors": ["redis/protocol.go"]}
{"id": "C57", "title": "A reply that has fully arrived is read exactly", "statement": "If the bytes of a well-formed reply are already buffered, receiving returns that message and leaves exactly the following bytes unread.", "quantifier": "all well-formed messages (nested arrays of any depth), any following bytes", "why_tests_cant": "Unbounded trees.", "anchors": ["redis/conn.go:readMessage"]}
{"id": "C58", "title": "Replies are read the same however the network splits them", "statement": "For every way the transport chunks the byte stream, receiving returns the same message.", "quantifier": "all messages and all chunkings", "why_tests_cant": "All chunkings; loopback tests deliver one chunk.", "anchors": ["redis/conn.go:readMessage", "redis/conn.go:Recv"]}
{"id": "C59", "title": "A malformed reply yields an error, never a crash", "statement": "For every byte stream, receiving returns a message or an error; it never panics.", "quantifier": "all byte streams and chunkings", "why_tests_cant": "All byte streams.", "anchors": ["redis/conn.go:readMessage"]}
{"id": "C60", "title": "A truncated reply is an error", "statement": "If the stream ends before the reply is complete, receiving returns an error.", "quantifier": "all proper prefixes of encodings", "why_tests_cant": "All cut points.", "anchors": ["redis/conn.go:readMessage"]}
{"id": "C61", "title": "Receiving always terminates and makes progress", "statement": "On every finite stream receiving finishes after consuming at least one byte or reports end of stream, even for huge array counts and deep nesting.", "quantifier": "all streams and chunkings", "why_tests_cant": "Termination is not testable.", "anchors": ["redis/conn.go:readMessage"]}
{"id": "C62", "title": "Snapshot transfer is byte-exact", "statement": "However the network splits it, the snapshot transfer writes exactly the announced number of payload bytes to the file, in order, and leaves the stream right behind them.", "quantifier": "all payloads and chunkings", "why_tests_cant": "All chunkings of unbounded payloads.", "anchors": ["redis/conn.go:ReadWithWriter", "redis/replication.go:sync"]}
{"id": "C63", "title": "Pipelined replies are matched in order", "statement": "Receiving n times from a stream of n fully buffered well-formed replies returns them in order.", "quantifier": "all message lists", "why_tests_cant": "Unbounded lists.", "anchors": ["redis/conn.go:Recv"]}
{"id": "C64", "title": "Remote string reads decode faithfully", "statement": "For every reply the client Get returns: the payload for a bulk string, an error for nil, an error for an error reply.", "quantifier": "all replies", "why_tests_cant": "All replies.", "anchors": ["redis/conn.go:ExecCommand", "redis/command.go:StringCommand"]}
{"id": "C65", "title": "Remote Set returns OK", "statement": "On an OK reply the client Set returns (\"OK\", nil).", "quantifier": "all keys and values", "why_tests_cant": "Universal.", "anchors": ["redis/command.go:OKCommand"]}
{"id": "C66", "title": "Remote SetNX reports the outcome", "statement": "The client SetNX returns no error when the server answers with an integer.", "quantifier": "all keys, values and integer replies", "why_tests_cant": "Universal.", "anchors": ["redis/redis.go:SetNX", "redis/command.go:OKCommand"]}
{"id": "C67", "title": "Remote SetEX/PSetEX/IncrBy send the command they are named after", "statement": "The request sent by client SetEX is SETEX key seconds value, PSETEX likewise, IncrBy is INCRBY key delta.", "quantifier": "all arguments", "why_tests_cant": "Needs the wire contract for all arguments.", "anchors": ["redis/redis.go:SetEX", "redis/redis.go:PSetEX", "redis/redis.go:IncrBy"]}
{"id": "C68", "title": "Remote IncrByFloat returns the server value", "statement": "The client IncrByFloat returns the float the server replied.", "quantifier": "all float replies", "why_tests_cant": "Universal.", "anchors": ["redis/command.go:FloatCommand"]}
{"id": "C69", "title": "Remote integer commands return the server integer", "statement": "For an integer reply n the integer commands return (n,nil); any other reply is an error.", "quantifier": "all replies", "why_tests_cant": "All replies.", "anchors": ["redis/command.go:IntCommand"]}
{"id": "C70", "title": "Remote MGet is positional", "statement": "For an array reply MGet returns one slot per element in order: text for strings and integers, an error for nil and error elements.", "quantifier": "all array replies", "why_tests_cant": "Unbounded arrays.", "anchors": ["redis/command.go:InterfaceArrayCommand"]}
{"id": "C71", "title": "A command never receives the reply of an earlier command", "statement": "On one connection, each command returns the result of its own reply.", "quantifier": "all pairs of commands and chunkings", "why_tests_cant": "Needs a particular split of the first reply.", "anchors": ["redis/conn.go:SendAndWaitReply", "redis/pool.go:ExecCommand"]}
{"id": "C72", "title": "Pool size bound and exclusive use", "statement": "In every interleaving at most capacity connections are pooled or lent, and no connection is lent to two goroutines at once.", "quantifier": "all numbers of goroutines and schedules", "why_tests_cant": "All schedules.", "anchors": ["redis/pool.go:Get", "redis/pool.go:Put"]}
{"id": "C73", "title": "Returning a connection never blocks", "statement": "Put of a borrowed connection, and the hand-over inside Get, always find room in the pool.", "quantifier": "all schedules", "why_tests_cant": "All schedules.", "anchors": ["redis/pool.go:Put"]}
{"id": "C74", "title": "A failed dial does not disable the pool", "statement": "After a Get that failed to connect, later Get calls still return (a connection or an error).", "quantifier": "all schedules with dial failures", "why_tests_cant": "Needs a failing server and a second caller.", "anchors": ["redis/pool.go:Get"]}
{"id": "C75", "title": "Pool.Close returns", "statement": "Close closes all idle connections and returns.", "quantifier": "all pool states", "why_tests_cant": "Blocking forever cannot be observed by a finite test.", "anchors": ["redis/pool.go:Close"]}
{"id": "C76", "title": "No deadlock while dialing succeeds", "statement": "If no dial has failed, then in every reachable configuration either some pool call can take a step or every connection is lent out and not yet returned.", "quantifier": "all schedules", "why_tests_cant": "All schedules.", "anchors": ["redis/pool.go"]}
{"id": "C77", "title": "RDB lengths decode", "statement": "Every length n < 2^64 encoded as in the RDB format is read back as n and exactly its bytes are consumed.", "quantifier": "all n < 2^64", "why_tests_cant": "Lengths of 16384 and more need big files.", "anchors": ["redis/rdb/rdb.go:LoadLen"]}
{"id": "C78", "title": "RDB integer strings decode", "statement": "A string stored in the RDB 8/16/32-bit integer encoding is read as the decimal text of that signed integer.", "quantifier": "all integers of the three widths", "why_tests_cant": "2^32 values.", "anchors": ["redis/rdb/rdb.go:LoadString"]}
{"id": "C79", "title": "RDB raw strings decode at any position", "statement": "A raw string of any length is read back byte for byte wherever it lies in the file.", "quantifier": "all strings and file positions", "why_tests_cant": "Depends on the position relative to the 4096-byte read buffer.", "anchors": ["redis/rdb/rdb.go:LoadString"]}
{"id": "C80", "title": "RDB compressed strings decode", "statement": "An LZF-compressed string in the RDB format is read back as the original text.", "quantifier": "all texts and all valid compressions", "why_tests_cant": "All token streams.", "anchors": ["redis/rdb/rdb.go:LoadString", "redis/lzf/lzf.go:DeCompress"]}
{"id": "C81", "title": "Binary sorted-set scores decode", "statement": "A score stored in the binary double encoding is read back as that double.", "quantifier": "all doubles", "why_tests_cant": "2^64 values.", "anchors": ["redis/rdb/rdb.go:LoadBinaryDouble"]}
{"id": "C82", "title": "Infinite and NaN scores decode", "statement": "The RDB markers for +inf, -inf and NaN are read as those values.", "quantifier": "the three markers", "why_tests_cant": "Finite, but against IEEE semantics.", "anchors": ["redis/rdb/rdb.go:LoadDouble"]}
{"id": "C83", "title": "Snapshot replay of string keys", "statement": "Loading a snapshot of any number of short string keys (spread over any databases) emits exactly one set command per key with that key and value, tagged with the right database, in file order.", "quantifier": "all lists of databases and key/value pairs within the supported sizes", "why_tests_cant": "Unbounded snapshots.", "anchors": ["redis/replication.go:Load"]}
{"id": "C84", "title": "A successful load has loaded everything", "statement": "If Load reports success then every key of the snapshot was emitted.", "quantifier": "all snapshots", "why_tests_cant": "Needs snapshots with unsupported types in the middle.", "anchors": ["redis/replication.go:Load"]}
{"id": "C85", "title": "Hash keys are replayed as hashes", "statement": "A snapshot key of plain hash type is replayed by a hash-setting command.", "quantifier": "all hashes", "why_tests_cant": "Universal.", "anchors": ["redis/replication.go:Load"]}
{"id": "C86", "title": "Expiry in seconds is converted to milliseconds", "statement": "A key with a seconds deadline t is replayed with deadline 1000*t milliseconds.", "quantifier": "all 32-bit t", "why_tests_cant": "Overflow only for t >= 4294968.", "anchors": ["redis/replication.go:Load"]}
{"id": "C87", "title": "List order is preserved", "statement": "A snapshot list is replayed so that the resulting list has the same order.", "quantifier": "all lists", "why_tests_cant": "Universal over lists.", "anchors": ["redis/replication.go:Load"]}
{"id": "C88", "title": "Integer sets decode", "statement": "Every intset of signed 16/32/64-bit integers decodes to the same integers in order.", "quantifier": "all lists of integers per width", "why_tests_cant": "All values and lengths.", "anchors": ["redis/intset/intset.go:Load"]}
{"id": "C89", "title": "Ziplists decode", "statement": "Every ziplist of strings and integers decodes to the same list of texts.", "quantifier": "all entry lists", "why_tests_cant": "All encodings and lengths.", "anchors": ["redis/ziplist/ziplist.go:Load"]}
{"id": "C90", "title": "Zipmaps decode", "statement": "Every zipmap decodes to the same field/value map.", "quantifier": "all field/value lists", "why_tests_cant": "Needs two or more entries.", "anchors": ["redis/zipmap/zipmap.go:Load"]}
{"id": "C91", "title": "A built zipmap can be read back", "statement": "After Set calls on a new zipmap, Lookup finds exactly the keys set, and Load returns the pairs.", "quantifier": "all key/value sequences", "why_tests_cant": "All byte contents.", "anchors": ["redis/zipmap/zipmap.go:Set", "redis/zipmap/zipmap.go:Lookup", "redis/zipmap/zipmap.go:Load"]}
{"id": "C92", "title": "LZF round trip", "statement": "DeCompress(Compress(s), len(s)) = s.", "quantifier": "all byte strings s, and all contents of the uninitialised hash table", "why_tests_cant": "The match finder depends on uninitialised memory and on the whole input.", "anchors": ["redis/lzf/lzf_c.c:lzf_compress", "redis/lzf/lzf_d.c:lzf_decompress", "redis/lzf/lzf.go"]}
{"id": "C93", "title": "The LZF compressor stays inside its buffers", "statement": "For every input of at least two bytes, every hash table content and every output size, the compressor never reads outside the input or writes outside the output.", "quantifier": "all inputs, table contents, output sizes", "why_tests_cant": "Memory safety for all inputs.", "anchors": ["redis/lzf/lzf_c.c:lzf_compress"]}
{"id": "C94", "title": "The LZF decompressor stays inside its buffers", "statement": "For every (also corrupt) non-empty input and every output size the decompressor never reads outside the input or the already written output, nor writes outside the output buffer, and terminates.", "quantifier": "all inputs and output sizes", "why_tests_cant": "All corrupt inputs.", "anchors": ["redis/lzf/lzf_d.c:lzf_decompress"]}
{"id": "C95", "title": "The LZF decompressor implements the format", "statement": "A stream of literal and back-reference tokens decodes to exactly the text those tokens denote whenever it fits the output size.", "quantifier": "all token streams", "why_tests_cant": "Unbounded streams, overlapping copies.", "anchors": ["redis/lzf/lzf_d.c:lzf_decompress"]}
{"id": "C96", "title": "Corrupt compressed data is reported", "statement": "DeCompress never returns corrupt input as if it were decoded text.", "quantifier": "all inputs", "why_tests_cant": "All corrupt inputs.", "anchors": ["redis/lzf/lzf.go:DeCompress"]}
{"id": "C97", "title": "Replicated commands are applied in order", "statement": "The commands received from the master for the selected database are applied to the cache in the order received, each exactly once.", "quantifier": "all message sequences and schedules", "why_tests_cant": "All schedules.", "anchors": ["xxcache.go:handleReplication"]}
{"id": "C98", "title": "Every replicated write takes effect", "statement": "Every write command in the stream (set, hmset, rpush, expire, del ...) is reflected in the cache or reported.", "quantifier": "all commands", "why_tests_cant": "All commands.", "anchors": ["cache/message.go:HandleMessage"]}
{"id": "C99", "title": "A malformed replicated command is an error, not a crash", "statement": "HandleMessage returns an error for every message it cannot apply.", "quantifier": "all messages", "why_tests_cant": "All arities.", "anchors": ["cache/message.go:HandleMessage"]}
{"id": "C100", "title": "Replication errors do not stop replication", "statement": "After any number of messages that cannot be applied, the replication loop still processes later messages.", "quantifier": "all schedules", "why_tests_cant": "Needs two errors before the error channel is drained.", "anchors": ["xxcache.go:handleReplication"]}
{"id": "C101", "title": "Only the selected database is mirrored", "statement": "Commands of the live stream that belong to another database are not applied.", "quantifier": "all streams", "why_tests_cant": "Needs SELECT in the stream.", "anchors": ["redis/replication.go:WaitForMessage", "xxcache.go:handleReplication"]}
{"id": "C102", "title": "A client created by New answers reads", "statement": "On a client returned by New, Get returns a value or an error for every key.", "quantifier": "all keys", "why_tests_cant": "Universal.", "anchors": ["xxcache.go:New", "command.go:Get"]}
{"id": "C103", "title": "Only keepalive pings are skipped", "statement": "Every message of the live stream other than a PING is forwarded for application.", "quantifier": "all messages", "why_tests_cant": "All messages.", "anchors": ["redis/replication.go:WaitForMessage"]}
{"id": "C104", "title": "Concurrent calls never crash the process", "statement": "No interleaving of any cache calls other than HKeys, HVals and HGetAll (see C42) and SetRange with an offset above 2^48 (see C11) makes a goroutine panic, even while keys are deleted, flushed or replaced by values of another kind.", "quantifier": "all ready caches, all numbers of goroutines, calls and schedules", "why_tests_cant": "Schedule dependent.", "anchors": ["cache/cachestring.go", "cache/cachehash.go", "cache/cachedb.go", "cache/cacheutil.go"]}
{"id": "C105", "title": "Without deadlines readers and writers are linearizable together", "statement": "As long as no key has a deadline, any concurrent execution of the string writers (except SetEX and PSetEX), Del and Flush together with Get, StrLen, GetRange, Type and single-key Exists and MGet has the same replies and final cache as some one-after-another order that respects real time.", "quantifier": "all caches without deadlines, all numbers of goroutines, calls and schedules", "why_tests_cant": "Exponentially many schedules.", "anchors": ["cache/cachestring.go", "cache/cachedb.go", "cache/cacheutil.go"]}
{"id": "C106", "title": "A caller waits only when the pool is exhausted", "statement": "No goroutine waits for a connection while none is idle and fewer than capacity connections exist.", "quantifier": "all schedules", "why_tests_cant": "Needs a caller that takes the connection another caller has just opened.", "anchors": ["redis/pool.go:Get"]}
{"id": "C107", "title": "Loading a snapshot always ends", "statement": "Load returns (or the process ends) on every file, however corrupt; it never loops.", "quantifier": "all byte sequences in all chunkings", "why_tests_cant": "All corrupt files.", "anchors": ["redis/replication.go:Load"]}
{"id": "C108", "title": "The replication position is taken from the snapshot", "statement": "After a successful load the replication id and offset are those of the snapshot's last repl-id and repl-offset fields.", "quantifier": "all snapshots", "why_tests_cant": "The field may lie anywhere in the file.", "anchors": ["redis/replication.go:Load"]}
{"id": "C109", "title": "Deadlines keep their instant", "statement": "The deadline t (Unix milliseconds) of a key in the snapshot is replayed by a command that makes the key expire at t, whenever it is executed.", "quantifier": "all deadlines and execution times", "why_tests_cant": "All times.", "anchors": ["redis/replication.go:Load"]}
{"id": "C110", "title": "Sorted sets are replayed with their scores", "statement": "A sorted set in the snapshot is replayed by a ZADD command that adds each member with its score.", "quantifier": "all sorted sets", "why_tests_cant": "All members and scores.", "anchors": ["redis/replication.go:Load"]}
{"id": "C111", "title": "The handshake saves the snapshot", "statement": "When the master answers PONG and a bulk snapshot, SyncWithRedis sends exactly PING and SYNC, saves exactly the snapshot, and leaves exactly the live stream to be read, however the bytes are split into network reads.", "quantifier": "all snapshots, live streams and chunkings", "why_tests_cant": "All chunkings, and live data in the same read as the snapshot.", "anchors": ["redis/replication.go:SyncWithRedis"]}
{"id": "C112", "title": "A refused synchronisation is an error", "statement": "If the master answers PING or SYNC with anything but PONG and a whole snapshot, SyncWithRedis returns an error.", "quantifier": "all replies", "why_tests_cant": "All replies.", "anchors": ["redis/replication.go:SyncWithRedis", "redis/protocol.go:ReadWithWriter"]}
{"id": "C113", "title": "The cache mirrors the snapshot and the stream", "statement": "Whenever the client has handled everything received, its cache holds what setting the string keys of database 0 of the snapshot in file order, and then executing the live SET commands in order, makes of it.", "quantifier": "all string snapshots, live streams, chunkings and schedules", "why_tests_cant": "All schedules of three goroutines.", "anchors": ["xxcache.go:New", "xxcache.go:handleReplication", "redis/replication.go:Load", "redis/replication.go:WaitForMessage"]}
{"id": "C114", "title": "After the connection ends the handler rests", "statement": "When the stream has ended and everything received was handled, the replication handler waits.", "quantifier": "all schedules", "why_tests_cant": "Needs the connection to end.", "anchors": ["xxcache.go:handleReplication", "redis/replication.go:WaitForMessage"]}
{"id": "C115", "title": "The message queue is bounded", "statement": "At most 10000 received messages wait for the handler; a full queue delays the senders and drops nothing (see C97).", "quantifier": "all schedules", "why_tests_cant": "Needs a burst of more than 10000 messages and a slow handler.", "anchors": ["redis/replication.go:SyncWithRedis", "redis/replication.go:WaitForMessage", "xxcache.go:handleReplication"]}
{"id": "C116", "title": "Each replication error is logged once", "statement": "Every error of HandleMessage, of an ack and of the stream is logged at most once, and at any time at most four of them are not logged yet.", "quantifier": "all schedules", "why_tests_cant": "All interleavings of three senders on a channel of capacity 1.", "anchors": ["xxcache.go:handleReplication", "redis/replication.go:WaitForMessage", "redis/replication.go:Ack"]}
{"id": "C117", "title": "New reports how the load ended", "statement": "New returns without error exactly if Load did; it returns only after everything Load found was sent to the handler, and the live stream is read only after a successful load.", "quantifier": "all snapshots, streams and schedules", "why_tests_cant": "All snapshots and schedules.", "anchors": ["xxcache.go:New"]}
{"id": "C118", "title": "Remote map replies are decoded pair by pair", "statement": "An array reply of even length is decoded to the map from each element at an even position to its successor, the last occurrence of a field counting; every other reply is an error.", "quantifier": "all replies", "why_tests_cant": "All reply shapes.", "anchors": ["redis/command.go:StringStringCommand.Parse"]}
{"id": "C119", "title": "HIncrByFloat stores the sum it returns", "statement": "After HIncrByFloat(k,f,d) returned x, HGet(k,f) shows x, and a further HIncrByFloat adds to x.", "quantifier": "all states, fields and increments", "why_tests_cant": "All floats.", "anchors": ["cache/cachehash.go:HIncrByFloat"]}
{"id": "C120", "title": "A value read and written back reads the same", "statement": "If Get(k) returns v, then after Set(k2,v) Get(k2) returns v.", "quantifier": "all states reachable with any calls", "why_tests_cant": "Values of all kinds and their texts.", "anchors": ["cache/cachestring.go:Set", "cache/cachestring.go:Get", "cache/cacheutil.go:tryInt64"]}
{"id": "C121", "title": "Get shows the number IncrByFloat returned", "statement": "After IncrByFloat returned x, the text Get returns parses to exactly x.", "quantifier": "all reachable states, all floats", "why_tests_cant": "Shortest decimal texts of all floats.", "anchors": ["cache/cachestring.go:IncrByFloat", "cache/cachestring.go:Get"]}
{"id": "C122", "title": "Concurrent remote commands get their own results", "statement": "Whatever goroutines share a Redis client, on each connection the commands run one at a time: their results are those of a single caller executing the same commands in the same order, each method returns the result of its own command, and with replies that arrive whole each command gets its own reply.", "quantifier": "all schedules, numbers of goroutines, options, commands and server streams", "why_tests_cant": "All interleavings of sends and receives on shared connections.", "anchors": ["redis/pool.go:ExecCommand", "redis/conn.go:ExecCommand", "redis/redis.go:process"]}
{"id": "C123", "title": "A connection is greeted before it is used", "statement": "The bytes sent on a connection begin with AUTH, if a password is set, and SELECT, if the database is positive; commands follow only after the server has answered both without an error. If it refuses, the call returns its error and the connection is not used.", "quantifier": "all options, schedules and server streams", "why_tests_cant": "All interleavings and replies.", "anchors": ["redis/redis.go:NewClient", "redis/pool.go:create"]}
{"id": "C124", "title": "Select applies to later commands", "statement": "A command executed after a successful Select works on the selected database.", "quantifier": "all schedules, options and commands", "why_tests_cant": "Depends on which pooled connection is handed out.", "anchors": ["redis/redis.go:Select", "redis/pool.go:Get"]}
{"id": "C125", "title": "A broken connection is replaced", "statement": "After the server has closed a connection, later commands use a new one.", "quantifier": "all schedules", "why_tests_cant": "Needs a server that closes idle connections.", "anchors": ["redis/pool.go:ExecCommand", "redis/pool.go:Put"]}
{"id": "C126", "title": "Module auxiliary records are skipped", "statement": "A module auxiliary record in a snapshot is passed over: Load sends what it sends for the snapshot without the record.", "quantifier": "all snapshots and records", "why_tests_cant": "No test server loads a module with auxiliary data.", "anchors": ["redis/replication.go:Load"]}
{"id": "C127", "title": "A cut-off snapshot replays a prefix of the whole", "statement": "What Load sends for the first bytes of a snapshot is the first part of what it sends for the whole snapshot.", "quantifier": "all snapshots and all places to cut them", "why_tests_cant": "All cut positions of all snapshots.", "anchors": ["redis/replication.go:Load", "redis/rdb/rdb.go:LoadString"]}
{"id": "C128", "title": "A value written through the client is read back", "statement": "After Client.Set(k,v) returned without error, Client.Get(k) returns v.", "quantifier": "all snapshots, streams, schedules, keys and values", "why_tests_cant": "All interleavings of user and replication goroutines.", "anchors": ["xxcache.go:New", "command.go:Get", "command.go:Set", "xxcache.go:handleReplication"]}
{"id": "C129", "title": "Get is answered locally and Set remotely", "statement": "Client.Get sends nothing and reads nothing from the server; Client.Set, at every moment of its run, leaves the cache as it is.", "quantifier": "all states and schedules", "why_tests_cant": "Absence of traffic in all states.", "anchors": ["command.go:Get", "command.go:Set"]}
{"id": "C130", "title": "Set fails after a failed New", "statement": "If New returned an error, Set on the returned client returns an error.", "quantifier": "all snapshots, streams and schedules", "why_tests_cant": "All ways in which New can fail.", "anchors": ["xxcache.go:New", "command.go:Set"]}
{"id": "C131", "title": "Stop ends the mirroring", "statement": "After Stop no message changes the cache any more.", "quantifier": "all executions", "why_tests_cant": "All points at which Stop may be called.", "anchors": ["xxcache.go:Stop", "xxcache.go:handleReplication"]}
{"id": "C132", "title": "Client.Set is a pooled SET command", "statement": "The calls of Client.Set behave as those of a Redis client without password and database: on each connection there are only SET commands, and each Set returns the result of its own command.", "quantifier": "all schedules, numbers of goroutines and server streams", "why_tests_cant": "All interleavings.", "anchors": ["command.go:Set", "xxcache.go:New", "redis/redis.go:Set"]}
{"id": "C133", "title": "New uses the configured address and file", "statement": "Replication and Redis client use the configured address, or 127.0.0.1:6379 if it is empty; the snapshot is saved to the configured file, or temp.rdb; the mirrored database is that of the option.", "quantifier": "all options", "why_tests_cant": "All options.", "anchors": ["xxcache.go:New", "xxcache.go:prepareOption"]}
{"id": "C134", "title": "List entries keep the order of appends", "statement": "After any sequence of AppendHead and AppendTail on any number of entries, each entry holds its own values, those appended at the head in reverse order before those appended at the tail in order.", "quantifier": "all sequences, entries and slice growth policies", "why_tests_cant": "All sequences and growth policies.", "anchors": ["cache/cachelist.go:AppendTail", "cache/cachelist.go:AppendHead"]}
{"id": "C135", "title": "Copies of a list entry are independent", "statement": "An append to a copy of a list entry does not change the original, and vice versa.", "quantifier": "all sequences of appends and copies, all slice growth policies", "why_tests_cant": "Depends on the capacity of the backing array.", "anchors": ["cache/cachelist.go:AppendTail", "cache/cachelist.go:AppendHead"]}
{"id": "C136", "title": "Pushed values can be read back from a list", "statement": "After RPush(k, v...) on an absent key, LRange(k,0,-1) returns v....", "quantifier": "all keys and values", "why_tests_cant": "All keys and values.", "anchors": ["cache/cachelist.go:RPush", "cache/cachelist.go:LRange"]}
{"id": "C137", "title": "A replica acknowledges what it has received", "statement": "Every second after New has returned, the replica sends REPLCONF ACK n, where n is the replication offset of the snapshot plus the number of bytes of the stream received since; it sends nothing else.", "quantifier": "all snapshots, streams and schedules", "why_tests_cant": "All streams and moments.", "anchors": ["redis/replication.go:Ack", "redis/replication.go:ack", "redis/replication.go:SetReplicationOffset"]}
{"id": "C138", "title": "Idle connections are used in turn", "statement": "A connection that is put back goes behind all idle ones, and of two idle connections the one that was put back first is handed out first.", "quantifier": "all schedules of Get and Put, all capacities, dial failures and cancellations", "why_tests_cant": "All interleavings.", "anchors": ["redis/pool.go:Get", "redis/pool.go:Put", "redis/pool.go:create"]}
{"id": "C139", "title": "No connection is lost", "statement": "Whatever Gets are cancelled and whatever dials fail: once all connections are put back and nobody is inside a call, every connection that was ever opened is idle in the pool.", "quantifier": "all schedules of Get and Put, all capacities", "why_tests_cant": "All interleavings and points of cancellation.", "anchors": ["redis/pool.go:Get", "redis/pool.go:create", "redis/pool.go:Put"]}
{"id": "C140", "title": "A closed pool can be used again", "statement": "After Close, Get opens new connections, up to the capacity.", "quantifier": "all schedules and capacities", "why_tests_cant": "All interleavings.", "anchors": ["redis/pool.go:Close", "redis/pool.go:create"]}
{"id": "C141", "title": "A closed connection is not used", "statement": "A connection that Close closes is in nobody's hands, and is never handed out again.", "quantifier": "all schedules and capacities", "why_tests_cant": "All interleavings of Close with Get and Put.", "anchors": ["redis/pool.go:Close", "redis/pool.go:Get"]}
{"id": "C142", "title": "A malformed reply harms only the command it answers", "statement": "Whatever a server sends in reply to one goroutine's command, the other goroutines that share the client continue unharmed.", "quantifier": "all schedules, options, commands and server streams", "why_tests_cant": "All byte streams at all points of all interleavings.", "anchors": ["redis/conn.go:readBulkString", "redis/conn.go:readProtocol", "redis/pool.go:ExecCommand"]}
{"id": "C143", "title": "Concurrent Incr calls draw distinct numbers", "statement": "Any number of goroutines calling Incr on one key are answered with the numbers that follow the old value, no two alike; a call that starts after another was answered gets a larger number; when all have returned the numbers are consecutive and the key holds the last.", "quantifier": "all numbers of goroutines, schedules, clocks and start values without overflow", "why_tests_cant": "Exponentially many schedules.", "anchors": ["cache/cachestring.go"]}
{"id": "C144", "title": "Concurrent SetNX has one winner", "statement": "Of any number of goroutines calling SetNX on a missing key at most one is answered 1; when all have returned exactly one was, and the key holds its value. No two readers ever see different values.", "quantifier": "all numbers of goroutines, values, schedules and clocks", "why_tests_cant": "Exponentially many schedules.", "anchors": ["cache/cachestring.go"]}
{"id": "C145", "title": "Concurrent Del reports one deletion", "statement": "Of any number of goroutines deleting one existing key exactly one is answered 1 and the others 0.", "quantifier": "all numbers of goroutines, schedules and clocks", "why_tests_cant": "Exponentially many schedules.", "anchors": ["cache/cachedb.go"]}
{"id": "C146", "title": "Concurrent GetSet hands every value on once", "statement": "Whatever goroutines call GetSet on one key: what they receive and what the key shows at the end are what the key showed at first and the values they gave, each exactly once.", "quantifier": "all numbers of goroutines, values, schedules and clocks", "why_tests_cant": "Exponentially many schedules.", "anchors": ["cache/cachestring.go"]}
{"id": "C147", "title": "Concurrent Append loses nothing", "statement": "Pieces appended to one key by any number of goroutines all end up in it, one after the other; every caller is answered the length up to its own piece, and readers see the pieces so far.", "quantifier": "all numbers of goroutines, values that are not reformatted as numbers, schedules and clocks", "why_tests_cant": "Exponentially many schedules.", "anchors": ["cache/cachestring.go"]}
{"id": "C148", "title": "Reads see writes", "statement": "With any number of goroutines setting and getting one key, a Get is answered with the first value or one given to a Set, and once a Set has returned, a Get that starts later is answered with a value given to a Set.", "quantifier": "all numbers of goroutines, values, schedules and clocks", "why_tests_cant": "Exponentially many schedules.", "anchors": ["cache/cachestring.go"]}
{"id": "C149", "title": "Every call returns", "statement": "Whatever the goroutines have done so far, the calls in progress can all be finished by their own steps, and when no new call starts no schedule keeps them busy for ever. Calls that may panic (HKeys, HVals, HGetAll, and SetRange with an offset above 2^48) are left out of the first part.", "quantifier": "all numbers of goroutines, calls, schedules and clocks", "why_tests_cant": "Infinite runs.", "anchors": ["cache/cachestring.go", "cache/cachehash.go", "cache/cachedb.go"]}
{"id": "C150", "title": "No reader goes back", "statement": "With one goroutine setting a key and any number getting it, every Get is answered with the value after some number of the sets, at least those returned before it and at most those called before its answer, and a Get that starts after another was answered never sees an older one.", "quantifier": "all numbers of readers, values, schedules and clocks", "why_tests_cant": "Exponentially many schedules.", "anchors": ["cache/cachestring.go"]}
{"id": "C151", "title": "The zipmap methods answer from its content", "statement": "After Set(k,v) on a new zipmap Get(k) returns v, iteration yields k, Len is 1, BlobLen is the number of bytes, and Lookup(k) fails after Del(k).", "quantifier": "all keys and values", "why_tests_cant": "All byte contents.", "anchors": ["redis/zipmap/zipmap.go:Get", "redis/zipmap/zipmap.go:Del", "redis/zipmap/zipmap.go:Len", "redis/zipmap/zipmap.go:BlobLen", "redis/zipmap/zipmap.go:Iterate"]}
{"id": "C152", "title": "A listing of a hash shows one moment", "statement": "HVals(k), HKeys(k) and HMGet(k, ..) called while other goroutines write fields show the hash as it was at one moment between call and return; in particular a field whose HSet returned before is shown.", "quantifier": "all fields, values, numbers of goroutines and schedules", "why_tests_cant": "Needs writes placed between two loads of one call.", "anchors": ["cache/cachehash.go:HVals", "cache/cachehash.go:HKeys", "cache/cachehash.go:HMGet"]}
{"id": "C153", "title": "HGet shows only what was written", "statement": "While a key keeps holding one hash, every HGet of a field is answered with the value it had at first or a value some call stored in it, and with key-not-found only if it was absent at first or some HDel names it.", "quantifier": "all fields, values, numbers of goroutines and schedules", "why_tests_cant": "Exponentially many schedules.", "anchors": ["cache/cachehash.go:HGet", "cache/cachehash.go:HSet", "cache/cachehash.go:HMSet"]}
{"id": "C154", "title": "HKeys lists the fields there are", "statement": "While a key keeps holding one hash, HKeys lists every field that was there at first and that no HDel names, and no field that was neither there at first nor written by some call.", "quantifier": "all fields, numbers of goroutines and schedules", "why_tests_cant": "Exponentially many schedules.", "anchors": ["cache/cachehash.go:HKeys", "cache/cachehash.go:HSet", "cache/cachehash.go:HDel"]}
{"id": "C155", "title": "HLen is right when several goroutines add fields", "statement": "When goroutines have added fields to one hash and their calls have returned, HLen is the number of fields HKeys lists.", "quantifier": "all numbers of goroutines, fields and schedules", "why_tests_cant": "A lost update needs two goroutines between the same two statements.", "anchors": ["cache/cachehash.go:HLen", "cache/cachehash.go:HSet", "cache/cachehash.go:HSetNX"]}
{"id": "C156", "title": "Goroutines on different keys do not disturb each other", "statement": "If two groups of goroutines never name a key of the other group, then removing one group from an execution leaves a possible execution in which the other group makes the same calls at the same clock readings and gets the same replies.", "quantifier": "all key sets, numbers of goroutines, calls (locked and unlocked), clock movements and schedules", "why_tests_cant": "A test sees a few schedules; a shared map, lock or hash entry could leak between keys in any other.", "anchors": ["cache/cachehash.go:HSet", "cache/cachestring.go:Set", "cache/cacheutil.go:expired"]}
{"id": "C157", "title": "A goroutine with keys of its own sees a sequential cache", "statement": "A goroutine whose keys nobody else names gets, for its finished calls, the replies of the same calls made one after the other on a cache of its own.", "quantifier": "all calls, numbers of other goroutines and schedules in which the clock stands during its calls", "why_tests_cant": "Unlocked calls are safe only because no other goroutine touches the key; tests cannot try every interleaving.", "anchors": ["cache/cachehash.go:HSet", "cache/cachehash.go:HIncrBy", "cache/cachestring.go:MSet"]}
{"id": "C158", "title": "Compress returns the compressed text whenever that is shorter", "statement": "If the compressor, given a buffer of any size, produces r bytes and 0 < r < len(s), then Compress(s) returns these r bytes and not s.", "quantifier": "all byte strings, buffer sizes and contents of the uninitialised hash table", "why_tests_cant": "Whether the compressor gives up depends on the last few bytes of room it has.", "anchors": ["redis/lzf/lzf.go:Compress", "redis/lzf/lzf_c.c:lzf_compress"]}
{"id": "C159", "title": "zipmap.Len is the number of bytes an entry takes", "statement": "Len(key, value) is the size of the entry in the zipmap format without spare bytes, and Set(key, value) of a new key adds that many bytes.", "quantifier": "all zipmaps, keys and values", "why_tests_cant": "Both sides of the length 254, for key and value.", "anchors": ["redis/zipmap/zipmap.go:Len", "redis/zipmap/zipmap.go:Set"]}
{"id": "C160", "title": "Histories on different keys commute", "statement": "If two histories name no common key, every way of interleaving them gives each of them the replies it gets alone and leaves caches that no later history can tell apart; in particular two calls on different keys commute.", "quantifier": "all caches, histories (hash, string and multi-key calls), times and interleavings", "why_tests_cant": "All pairs of histories and all interleavings.", "anchors": ["cache/cachestring.go", "cache/cachehash.go", "cache/cachedb.go"]}
{"id": "C161", "title": "SetEX, PSetEX and Del make the past of a key unobservable", "statement": "After any history on one key, SetEX(k, v, n), PSetEX(k, v, n) or Del(k) leaves the cache as it would have without that history.", "quantifier": "all caches, histories, values, durations and times", "why_tests_cant": "All histories before and after.", "anchors": ["cache/cachestring.go:SetEX", "cache/cachestring.go:PSetEX", "cache/cachedb.go:Del"]}
{"id": "C162", "title": "Counting calls add up", "statement": "IncrBy(k, a) followed by IncrBy(k, b) is IncrBy(k, a+b), with the sum wrapped to int64; Incr, Decr and DecrBy(d) are IncrBy of 1, -1 and -d. Replies and all later observations agree, also when they fail.", "quantifier": "all caches, keys, increments and times", "why_tests_cant": "All int64 pairs, all stored types.", "anchors": ["cache/cachestring.go:IncrBy", "cache/cachestring.go:DecrBy", "cache/cachestring.go:Incr", "cache/cachestring.go:Decr"]}
{"id": "C163", "title": "Append piece by piece", "statement": "Append(k, a) followed by Append(k, b) is Append(k, a+b).", "quantifier": "all caches, keys and texts", "why_tests_cant": "All splits of all texts.", "anchors": ["cache/cachestring.go:Append"]}
{"id": "C164", "title": "A call on several keys or fields is the calls on each of them", "statement": "MSetNX, Exists, HDel and HMSet have the effect of SetNX, Exists, HDel and HSet on their arguments one by one, and answer the sum of the answers.", "quantifier": "all caches, argument lists (also with repetitions, not empty for hashes) and times", "why_tests_cant": "All lists, with repetitions.", "anchors": ["cache/cachestring.go:MSetNX", "cache/cachedb.go:Exists", "cache/cachehash.go:HDel", "cache/cachehash.go:HMSet"]}
{"id": "C165", "title": "SetEX counts seconds, PSetEX milliseconds", "statement": "SetEX(k, v, n) is PSetEX(k, v, 1000 n), with the product wrapped to int64.", "quantifier": "all caches, values, durations and times", "why_tests_cant": "All int64 durations, including those that overflow.", "anchors": ["cache/cachestring.go:SetEX", "cache/cachestring.go:PSetEX"]}
{"id": "C166", "title": "A conditional write that applies is the plain write", "statement": "When the key or field is absent, SetNX has the effect of Set, MSetNX that of MSet, and HSetNX that of HSet.", "quantifier": "all caches, keys, fields and values", "why_tests_cant": "All later observations.", "anchors": ["cache/cachestring.go:SetNX", "cache/cachestring.go:MSetNX", "cache/cachehash.go:HSetNX"]}
{"id": "C167", "title": "SetRange at the end of a text is Append", "statement": "When StrLen(k) is n, SetRange(k, n, r) and Append(k, r) give the same reply and leave caches nobody can tell apart.", "quantifier": "all caches, keys, texts and times", "why_tests_cant": "All later observations.", "anchors": ["cache/cachestring.go:SetRange", "cache/cachestring.go:Append"]}
{"id": "C168", "title": "The cache answers like a reference store", "statement": "Every history of calls returns, and gets the replies of a reference store in which a key holds a text or a hash of texts and perhaps a deadline, past which it does not exist.", "quantifier": "all histories of all 37 calls from an empty cache, all times", "why_tests_cant": "All histories: every combination of calls, values, types and deadlines.", "anchors": ["cache/cachestring.go", "cache/cachehash.go", "cache/cachedb.go"]}
{"id": "C169", "title": "Goroutines share one reference store", "statement": "In every concurrent execution of text calls (no numbers, no deadlines) the replies are those the reference store gives to the calls one after the other, in an order in which each call stands between its invocation and its return.", "quantifier": "all executions of any number of goroutines, all interleavings of single steps", "why_tests_cant": "All interleavings.", "anchors": ["cache/cachestring.go", "cache/cachedb.go"]}
{"id": "C170", "title": "Goroutines share one reference store, counters included", "statement": "As C169 for texts and counters (each key is used as one or the other): the replies are those of the reference store in some order of the calls that respects their invocations and returns, with exact sums as long as the amounts given to all calls together stay below 2^63.", "quantifier": "all executions of any number of goroutines, all interleavings of single steps", "why_tests_cant": "All interleavings and all amounts.", "anchors": ["cache/cachestring.go", "cache/cachedb.go"]}
{"id": "C171", "title": "Reads through the client follow the history of the master", "statement": "Every Get of the client shows its key as of some point of what the master sent, the snapshot in file order and then the stream, and later Gets never an earlier point.", "quantifier": "all snapshots, streams, schedules of load, receiver and handler, all chunkings", "why_tests_cant": "From the bytes on the wire to the reply of Get, for every schedule.", "anchors": ["xxcache.go", "redis/replication.go", "cache/message.go", "cache/cachestring.go"]}
{"id": "C172", "title": "A call on several keys is its calls on one key, one after the other", "statement": "In every execution MSet, MSetNX, MGet and Exists on several keys have the effects and replies of the same call made for each key alone, in order, between the invocation and the return of the whole call.", "quantifier": "all worlds, all calls of all goroutines, all interleavings", "why_tests_cant": "All schedules and all other calls in between.", "anchors": ["cache/cachestring.go", "cache/cachedb.go"]}
{"id": "C173", "title": "MGet and Exists show one moment", "statement": "The reply of an MGet or an Exists on several keys is that of one moment between its invocation and its return.", "quantifier": "all executions of calls without durations", "why_tests_cant": "Needs a write between the looks at two keys.", "anchors": ["cache/cachestring.go", "cache/cachedb.go"]}
{"id": "C174", "title": "MSet and MSetNX, key by key, take effect at one moment each", "statement": "Every write of an MSet or MSetNX takes effect at one moment between the invocation and the return of the call, whatever other calls run, and stays until the key is written again.", "quantifier": "all executions of calls without durations, all interleavings", "why_tests_cant": "MSet takes no lock; the loss needs it to run inside another call.", "anchors": ["cache/cachestring.go"]}
{"id": "C175", "title": "An operation that overlaps a Flush comes before or after it", "statement": "A call may read the pointer to a dictionary, a Flush may replace it, and the call then uses the old dictionary; callers observe exactly the same histories as if pointer and dictionary were used in one step.", "quantifier": "all calls, all schedules of any number of goroutines, from every cache with dictionaries", "why_tests_cant": "Needs a Flush between two machine steps of another call, and all schedules.", "anchors": ["cache/cachedb.go", "cache/database.go", "cache/cache.go"]}
{"id": "C176", "title": "Calls on the fields of a hash take effect at one moment each", "statement": "Calls of HSet, HSetNX, HGet, HStrLen, HExists, and HMSet or HMGet with one field, on hashes that exist and have no deadline, reply as if they ran one after the other in an order that respects returns; none of them waits; HDel, HIncrBy, HIncrByFloat, several fields, lists of fields, HLen and new hashes have schedules that fit no order.", "quantifier": "all such calls, all schedules of any number of goroutines, all prepared caches", "why_tests_cant": "HSet looks for the field and stores it in two steps; only some interleavings with HDel or HIncrBy show it.", "anchors": ["cache/cachehash.go"]}
{"id": "C177", "title": "Only the order of lists depends on how sync.Map.Range visits keys", "statement": "With any Range that its documentation allows, calls made one after the other reply as the model says up to the order of the lists of HKeys and HVals, and leave the same cache; each order of the fields is possible.", "quantifier": "all calls and histories, all prepared caches, all orders of visits", "why_tests_cant": "sync.Map uses one order per process and version of Go; other orders are not exercised by a test.", "anchors": ["cache/cachehash.go", "cache/cachedb.go"]}
{"id": "C178", "title": "Lists of a hash while fields change, with any Range that is allowed", "statement": "HKeys on a hash that is neither replaced nor expired lists no field twice, lists only fields that were there or that some call stored, and leaves out only fields that were absent or that some call deletes; HVals shows the value of a field that no call touches; the schedules of the model are among these executions.", "quantifier": "all calls that keep the key, all schedules of any number of goroutines, all visits that the documentation allows", "why_tests_cant": "Range overlaps stores and deletes; tests see one order and few overlaps.", "anchors": ["cache/cachehash.go"]}
{"id": "C179", "title": "Names of keys and fields do not matter", "statement": "Put other names for keys and fields, one for one: every history and every execution of goroutines gets the same replies and crashes, with the new names in HKeys, up to the order of the lists of HKeys and HVals.", "quantifier": "all one-to-one renamings, all histories, all schedules of any number of goroutines", "why_tests_cant": "A key that is treated in a special way (a prefix, a reserved name, an empty or binary key) is found by a test only if the test uses it.", "anchors": ["cache/cachestring.go", "cache/cachehash.go", "cache/cachedb.go"]}
{"id": "C180", "title": "Only differences of time matter", "statement": "Moving the clock and all deadlines by the same amount changes no reply of any history or schedule, and moves the resulting deadlines by that amount.", "quantifier": "all amounts, all calls, all histories and schedules, all times after the year 1", "why_tests_cant": "A dependence on the time of day needs a test at that time; relative expiry is tested with the clock of the test machine.", "anchors": ["cache/cachestring.go", "cache/cacheutil.go", "cache/cachecron.go"]}
{"id": "C181", "title": "Only the contents of a cache matter", "statement": "Two caches that hold the same values, deadlines, fields and counters answer every history and every execution of goroutines alike, can take and fail at the same steps, and end with the same contents, whatever the order in which their hashes were made.", "quantifier": "all pairs of caches with the same contents, all histories, all schedules of any number of goroutines, all orders of sync.Map.Range", "why_tests_cant": "A hash shared by mistake between two keys, or a leftover of a deleted one that is used again, shows only for some order of creation.", "anchors": ["cache/cachestring.go", "cache/cachehash.go", "cache/cachedb.go", "cache/cacheutil.go"]}
{"id": "C182", "title": "Replies show all contents", "statement": "One caller cannot tell two caches apart exactly if they have the same contents (value and kind at each key, deadlines also of keys with no value, every field with its kind, the counter of each hash); what one caller cannot tell apart, goroutines cannot.", "quantifier": "all pairs of caches made by any calls with arguments of Go types, all histories, all schedules", "why_tests_cant": "That nothing is hidden is a statement about all pairs of states and all ways to tell them apart.", "anchors": ["cache/cachestring.go", "cache/cachehash.go", "cache/cachedb.go", "cache/cacheutil.go"]}
{"id": "C183", "title": "Only Flush against unlocked calls, and two uses of the length of one hash, can race", "statement": "In every execution of goroutines, if two of them are about to touch the same unsynchronised memory and one to write it, then one is in Flush and the other in a call that takes no lock, or both are in calls that use the length of the hash at one key (HSet, HSetNX, HExists, HDel, HIncrBy, HIncrByFloat, HMSet write it, HLen reads it) and one writes; conflicting uses at any distance are otherwise ordered by a release and a later acquisition of the lock.", "quantifier": "all ready caches, all schedules of any number of goroutines and calls", "why_tests_cant": "The race detector sees only the accesses of the schedules that ran; absence of races for all other pairs of calls needs all schedules.", "anchors": ["cache/cachestring.go", "cache/cachehash.go", "cache/cachedb.go", "cache/cacheutil.go"]}
{"id": "C184", "title": "Each of these pairs does race", "statement": "For calls that name at least one key, field or pair: some goroutines on a new cache come to a data race between a call a and a call b if and only if a and b are one of the pairs of C183.", "quantifier": "all pairs of calls with all arguments", "why_tests_cant": "Whether a pair can race depends on a schedule that brings both to the access at once, in one case with the help of a third goroutine.", "anchors": ["cache/cachestring.go", "cache/cachehash.go", "cache/cachedb.go", "cache/cacheutil.go"]}
{"id": "C185", "title": "The pool works the same when each access to its fields is a step of its own", "statement": "If counting a new connection and every copy of the pool made by a value receiver (create, the deferred Put, Close) are steps that other goroutines can come between, the calls still return exactly the results, in the orders, that they return when these are done at once.", "quantifier": "all schedules of Get, Put, Close, Exec, ExecCommand, all capacities, dial failures and cancellations", "why_tests_cant": "All interleavings at the level of single accesses.", "anchors": ["redis/pool.go:Get", "redis/pool.go:create", "redis/pool.go:Put", "redis/pool.go:Close", "redis/pool.go:Exec", "redis/pool.go:ExecCommand"]}
{"id": "C186", "title": "Calling a method of the pool by value races, in exactly these ways", "statement": "For each capacity: two goroutines can be about to touch the count or the mutex of the pool at once, not both reading and not both atomically, if and only if one copies the pool to call create and the other locks; or one copies it to call Put or Close and the other locks, unlocks, or counts a new connection (for Put the last only if the capacity is not 1). The comparison of the count with the capacity and the counting never race.", "quantifier": "all schedules, all capacities", "why_tests_cant": "The race detector sees only schedules that ran; the absence of other races and the exception for capacity 1 need all schedules.", "anchors": ["redis/pool.go:Get", "redis/pool.go:create", "redis/pool.go:Put", "redis/pool.go:Close", "redis/pool.go:Exec", "redis/pool.go:ExecCommand"]}
{"id": "C187", "title": "Messages sent are on the wire whole and in order up to the first failed write, and nothing after it", "statement": "For every behaviour of the connection (each Write fails or not, having taken any number of the bytes): Send reports success exactly for the messages before the first failed Write, these are on the wire whole and in order, followed by what the failed Write took of one message; every later Send reports that same error and puts nothing on the wire.", "quantifier": "all messages, all failures", "why_tests_cant": "Messages larger than the buffer are written in another way than small ones; failures after any number of bytes.", "anchors": ["redis/conn.go:Send", "redis/conn.go:Write"]}
{"id": "C188", "title": "A command succeeds if the transport and the server are in order when it is executed", "statement": "After one failed Write, every command on that connection fails with the old error, though connection and server work again, and Pool gives the same connection to a lone goroutine for ever, whatever its capacity. With no failed Write, Exec is as if writers never fail.", "quantifier": "all commands, connections, errors, schedules of one goroutine", "why_tests_cant": "The error is remembered for ever; needs all continuations.", "anchors": ["redis/conn.go:Exec", "redis/conn.go:Send", "redis/pool.go:Get", "redis/pool.go:Put", "redis/pool.go:ExecCommand"]}
{"id": "C189", "title": "A snapshot that could not be saved is reported", "statement": "If ReadWithWriter returns no error, the file holds the whole snapshot. False: the error of the last write of the file (deferred Flush) is dropped, so for each non-empty snapshot some failure passes unnoticed, and of a snapshot of at most 4096 bytes all do. What the file holds and the error returned are characterised for all failures.", "quantifier": "all snapshots, chunkings of the stream, failures of the file", "why_tests_cant": "Every block of every snapshot can fail at every byte.", "anchors": ["redis/conn.go:ReadWithWriter"]}
{"id": "C190", "title": "The remote client is linearizable against a server that serves one request at a time", "statement": "For every number of goroutines, pool, schedule and order of service: each call is the call, one service of exactly its request, the return of what that reply decodes to (or a failed dial, no service, its error); the server serves nothing else, and its replies are those of a sequential run. A request sent is never lost. Needs that replies are read as sent (all of at most 4096 bytes in one piece, or without bulk strings in any pieces): a split value gives a value the server never had, and the next caller its rest.", "quantifier": "all goroutines, schedules, servers, pool sizes", "why_tests_cant": "Needs all interleavings of callers, pool and server; tests see one.", "anchors": ["redis/redis.go:process", "redis/pool.go:ExecCommand", "redis/pool.go:Get", "redis/conn.go:ExecCommand", "redis/conn.go:Recv"]}
{"id": "C191", "title": "No number is handed out twice by Incr on a remote server", "statement": "Against a server that counts, all calls of Incr (of any goroutines, over any pool, in any schedule, with failed dials, the replies arriving in any pieces) that return without error return different numbers, all above the one the server had.", "quantifier": "all goroutines, schedules, chunkings", "why_tests_cant": "Needs all interleavings and all chunkings.", "anchors": ["redis/redis.go:Incr", "redis/pool.go:ExecCommand", "redis/conn.go:ExecCommand", "redis/conn.go:Recv"]}
{"id": "C192", "title": "The calls of one caller that panic are exactly these", "statement": "In every state that calls lead to, a call panics exactly if it is HKeys, HVals or HGetAll of a key that holds nothing (absent or expired), or SetRange of such a key at a position above 2^48; every other call returns.", "quantifier": "all calls, states, times", "why_tests_cant": "Tests try some keys; the claim is about every call in every reachable state.", "anchors": ["cachehash.go:HKeys", "cachehash.go:HVals", "cachehash.go:HGetAll", "cachestring.go:SetRange"]}
{"id": "C193", "title": "A recovered panic has the effect of a Get", "statement": "A caller that recovers the panic of a call finds the cache exactly as after a Get of the same key at that time, with the lock free: every history with recovered panics is the history with these calls replaced by Get.", "quantifier": "all histories", "why_tests_cant": "Needs all states in which a call can panic, the lock held or not.", "anchors": ["cachestring.go:SetRange", "cachehash.go:HKeys", "cachehash.go:HVals", "cachehash.go:HGetAll", "cacheutil.go:get"]}
{"id": "C194", "title": "Goroutines that recover panics never leave the lock behind", "statement": "For all goroutines and schedules, panics being recovered by the callers: some goroutine in a call can always go on, the deferred function of a call that panics unlocks exactly the lock its goroutine holds, when all calls have ended the lock is free and no call waits, and the only calls that ever panic are HKeys, HVals, HGetAll and SetRange above 2^48.", "quantifier": "all goroutines, schedules", "why_tests_cant": "Needs all interleavings with a panic at any point.", "anchors": ["cachestring.go:SetRange", "cachestring.go:Get", "cachehash.go:HKeys", "cachedb.go:Del"]}
{"id": "C195", "title": "Readers follow the stream while it is applied", "statement": "While the replication handler calls Set on the cache and any number of goroutines call Get, their operations interleaving in any way: every Get returns what the first n replicated set commands gave its key, for an n between those that had reached the cache when it was called and when it returned; so a Get called after another has returned never shows an older state, for whatever keys.", "quantifier": "all snapshots, streams, goroutines, schedules", "why_tests_cant": "Needs all interleavings of the single operations of Set and Get.", "anchors": ["xxcache.go:handleReplication", "cache/message.go:HandleMessage", "command.go:Get", "cachestring.go:Set", "cachestring.go:Get"]}
{"id": "C196", "title": "Readers do not disturb the replication", "statement": "With any number of goroutines calling Get at any moments, the replication takes and handles the same messages in the same order, reports the same errors and ends the process in the same cases as without readers; when nobody is inside a call the cache answers with all set commands taken; and everybody inside a call on the cache can return.", "quantifier": "all snapshots, streams, goroutines, schedules", "why_tests_cant": "Needs all interleavings of readers and the handler.", "anchors": ["xxcache.go:handleReplication", "cache/message.go:HandleMessage", "command.go:Get"]}
{"id": "C197", "title": "New reports every failure of setting up", "statement": "New returns nil only if dialling, both writes to the master, the reply to the ping, creating, writing and opening the snapshot file and loading it went well; then the master was sent exactly PING and SYNC. Otherwise it returns the error of the first thing that went wrong.", "quantifier": "all options, failures of the network and of the file system, replies, schedules", "why_tests_cant": "Needs every combination of failures, each at every point of every write.", "anchors": ["xxcache.go:New", "redis/replication.go:SyncWithRedis", "redis/replication.go:ping", "redis/replication.go:sync", "redis/replication.go:Load"]}
{"id": "C198", "title": "A disk that fails while the snapshot is saved", "statement": "If New returns nil then the snapshot file holds the snapshot. False: bytes of the checksum may be missing. Whatever the disk does, nothing else can be missing, everything in the snapshot was loaded, and the live stream begins where the snapshot ends.", "quantifier": "all snapshots, chunkings, failures of the disk at any byte, schedules", "why_tests_cant": "Needs a disk that fails at every possible byte, for every snapshot.", "anchors": ["redis/conn.go:ReadWithWriter", "redis/replication.go:sync", "redis/replication.go:Load", "xxcache.go:New"]}
{"id": "C199", "title": "New that fails leaves nothing behind", "statement": "When New returns an error, what it opened is closed and no goroutine it started runs. False: New closes nothing. What is open and what runs in each case is characterised exactly.", "quantifier": "all options, failures, schedules", "why_tests_cant": "Needs every combination of failures.", "anchors": ["xxcache.go:New", "redis/replication.go:SyncWithRedis", "redis/replication.go:sync", "redis/replication.go:Load"]}
{"id": "C200", "title": "A file that is cut off and loads without error loads what the whole does", "statement": "For every file F and every continuation: if Load returns nil for F, then for the longer file it returns nil and sends the same messages. False for one message: the expiry of a key with a module value within whose name the file ends. All other messages, and the state, are proved the same.", "quantifier": "all byte sequences, all cuts", "why_tests_cant": "Needs every file cut off at every byte; C84 and C127 cut well-formed snapshots only.", "anchors": ["redis/replication.go:Load", "redis/rdb/rdb.go:LoadString", "redis/rdb/rdb.go:LoadLen", "redis/rdb/rdb.go:LoadDouble"]}
{"id": "C201", "title": "Concurrent HSetNX has one winner", "statement": "When any number of goroutines call HSetNX with one absent field of one key, exactly one of them is told 1. True for a key that holds a hash: any one may win, and exactly one does. False for a key that is not stored: any of them and any number of them may be told 1, only not none.", "quantifier": "all caches, numbers of goroutines, values, schedules", "why_tests_cant": "Needs all interleavings of any number of goroutines.", "anchors": ["cachehash.go:HSetNX", "cachehash.go:getHashEntry"]}
{"id": "C202", "title": "Concurrent HDel reports one deletion", "statement": "When any number of goroutines HDel one field of one hash, exactly one of them is told 1 and HLen is one less. False: any of them, but at least one, may be told 1, and HLen is anything from the old count less one down to the old count less the number of those told 1 (below zero too). The field is gone in every case.", "quantifier": "all caches, hashes, numbers of goroutines, replies, counts, schedules", "why_tests_cant": "Needs all interleavings of any number of goroutines.", "anchors": ["cachehash.go:HDel", "cachehash.go:HLen"]}
{"id": "C203", "title": "HLen is right when goroutines add and delete different fields", "statement": "When goroutines each add a new field to a hash or each delete a field that is there, all different, HLen is afterwards the old count plus the number added less the number deleted. False: any count from the old one less all deletions up to the old one plus all additions is possible, and nothing else, except that the old count itself needs both kinds.", "quantifier": "all caches, hashes, numbers of goroutines, fields, counts, schedules", "why_tests_cant": "Needs all interleavings of any number of goroutines.", "anchors": ["cachehash.go:HSet", "cachehash.go:HDel", "cachehash.go:HLen"]}
