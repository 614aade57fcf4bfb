# Source of /verif/properties.jsonl.  Run:  python3 tools/props.py
import json, os
P = []
def p(id, title, statement, quantifier, why, anchors):
    P.append(dict(id=id, title=title, statement=statement, quantifier=quantifier,
                  why_tests_cant=why, anchors=anchors))

S='cache/cachestring.go'; H='cache/cachehash.go'; D='cache/cachedb.go'; U='cache/cacheutil.go'
# ---------------------------------------------------------------- cache: strings, sequential
p('C01','A read returns what was written',
  'After cache.Set(k,v) acknowledges, Get(k) returns exactly the bytes v, as long as no later call names k.',
  'all cache states, all keys, all byte strings v, all later histories that do not name k',
  'The value space is all byte strings; only a few spellings (leading zeros, exponents, hex floats, 20-digit integers) behave differently and a sample misses them.',
  [S+':Set', S+':Get', S+':tryInt64', S+':fmtString'])
p('C02','The stored text is a function of the written text only',
  'What Get(k) returns after Set(k,v) on a key without a time-to-live depends on v alone: it is v itself unless v is a Go integer or float literal, in which case it is the canonical rendering of that number; canonical int64 decimals come back unchanged.',
  'all states, all keys, all byte strings v',
  'Needs every byte string, including all numeric spellings, not a sample.',
  [S+':Set', S+':Get', S+':tryInt64', S+':fmtString'])
p('C03','Calls on one key never disturb another key',
  'No sequence of string, hash or delete calls that name only keys different from k changes what Get(k), StrLen(k), GetRange(k,..), HGet(k,..) or HLen(k) returns at any instant.',
  'all states reachable by any history, all keys, all call sequences not naming k',
  'Quantifies over all histories; aliasing or a shared entry would only show up in particular interleavings of keys.',
  [S, H, D, U])
p('C04','An expired key is never readable (single caller)',
  'If a key was given a deadline and the clock is strictly past it, then Get, StrLen, GetRange, GetSet and MGet treat the key as absent.',
  'all states, all keys, all clock values past the deadline',
  'Every deadline/clock combination, including the exact boundary instant.',
  [U+':expired', U+':get', S+':Get', S+':MGet'])
p('C05','A key never expires early',
  'A value stored by SetEX/PSetEX with a positive, non-overflowing duration is returned by Get at every instant up to and including the deadline, however many reads or calls on other keys happen in between.',
  'all states, keys, values, positive durations that fit in an int64 of nanoseconds, all later histories not naming the key before the deadline',
  'All interleavings of reads and other-key calls and all clock values.',
  [S+':SetEX', S+':PSetEX', U+':expires', U+':expired'])
p('C06','A plain Set removes the time-to-live',
  'After Set(k,v) the key has no deadline left: Get(k) returns v at every later time (Redis SET semantics).',
  'all states, keys, values and later clock values',
  'The failure needs a particular order of SetEX, Set and clock advance.',
  [S+':Set', S+':SetEX', U+':expired'])
p('C07','A Set acknowledged after expiry is not lost',
  'If a key has expired and the caller then sets it, the acknowledged value is readable immediately afterwards.',
  'all states, keys, values, clock values past the old deadline',
  'Depends on whether the expired entry was already purged, i.e. on the whole history.',
  [S+':Set', U+':expired'])
p('C08','SetNX stores exactly when the key is absent',
  'SetNX(k,v) returns 1 and stores v iff k has no live value; otherwise it returns 0 and changes nothing.',
  'all states, keys, values, clock values',
  'Absence by expiry depends on the history and clock.',
  [S+':SetNX'])
p('C09','GetSet swaps',
  'GetSet(k,v) returns what Get(k) would have returned just before and stores v as Set would.',
  'all states, keys, values', 'All prior states and value kinds.', [S+':GetSet'])
p('C10','Append concatenates and reports the new length',
  'After Append(k,v), Get(k) is the old value followed by v, and the returned number is the length of what Get now returns.',
  'all states, keys, byte strings', 'The concatenation may become a numeric literal; only particular splits expose the re-rendering.',
  [S+':Append'])
p('C11','SetRange overwrites in place with zero padding',
  'After SetRange(k,pos,r) with pos>=0 the byte at each index i is r[i-pos] inside the written window, the old byte outside it, and NUL in any gap; the returned length is max(len(old),pos+len(r)) and Get returns that string.',
  'all states, keys, offsets >= 0, replacement strings', 'All offsets relative to all lengths.', [S+':SetRange'])
p('C12','SetRange rejects negative offsets without side effects',
  'SetRange with a negative offset returns the out-of-range error and leaves every later answer of the cache unchanged.',
  'all states, keys, negative offsets, strings','All states.',[S+':SetRange'])
p('C13','GetRange returns exactly the requested slice',
  'GetRange(k,start,end) returns the bytes whose index i satisfies s<=i<=e and 0<=i<len, where negative bounds count from the end; it never fails on a string value and is the empty string for an absent key.',
  'all states, keys and all int64 start/end','All combinations of signs, lengths and extreme int64 bounds.',[S+':GetRange'])
p('C14','StrLen agrees with Get',
  'StrLen(k) is the length of what Get(k) returns, 0 for an absent key, and the wrong-type error exactly when Get gives the wrong-type error.',
  'all states and keys','All value kinds and expiry states.',[S+':StrLen',S+':Get'])
p('C15','IncrBy adds and returns the sum',
  'On a key holding an int64 n, IncrBy(k,d) returns n+d whenever that fits in an int64, Get(k) then shows that decimal; on an absent key it returns d.',
  'all states, keys, n, d in int64','All int64 pairs.',[S+':IncrBy',S+':incrBy'])
p('C16','Counter overflow is refused',
  'IncrBy/DecrBy never silently wrap: if the mathematical result does not fit an int64 an error is returned and the counter is unchanged.',
  'all int64 counters and deltas','Boundary pairs only.',[S+':incrBy',S+':DecrBy'])
p('C17','Counter histories sum up',
  'After any sequence of Incr/IncrBy/Decr/DecrBy on a key holding an integer, the key holds the initial value plus the sum of the deltas (modulo 2^64), and each call returned the running total.',
  'all initial values and all delta sequences of any length','Unbounded sequences.',[S+':Incr',S+':IncrBy',S+':Decr',S+':DecrBy'])
p('C18','Counting on non-integers fails cleanly',
  'IncrBy on a key holding a float, text or hash returns the wrong-type error and leaves the cache unchanged.',
  'all states with such a value, all deltas','All value kinds.',[S+':incrBy'])
p('C19','IncrByFloat works on any integer counter',
  'IncrByFloat(k,f) succeeds on every key whose value reads as an integer.',
  'all states, keys, floats','Depends on how the counter was created (Set or Incr).',[S+':IncrByFloat',S+':incrBy'])
p('C20','Incrementing an expired counter starts from zero',
  'IncrBy on a key past its deadline behaves as on an absent key.',
  'all states, keys, deltas, clocks past the deadline','History and clock dependent.',[S+':incrBy'])
p('C21','MSet is the same as setting each pair, in any order',
  'For any map, and for any iteration order the runtime picks, MSet leaves the cache in the same state: every listed key holds its value, every other key is untouched.',
  'all states, all finite maps, all iteration orders','Go map iteration order is randomised; all orders must agree.',[S+':MSet'])
p('C22','MSetNX is all or nothing',
  'MSetNX stores either every pair or none.',
  'all states and maps','Needs a mix of present and absent keys.',[S+':MSetNX'])
p('C23','MSetNX never overwrites and counts what it stored',
  'MSetNX leaves every already stored key unchanged, stores every other listed key and returns the number stored, for every iteration order.',
  'all states, maps, iteration orders','All orders and all subsets of present keys.',[S+':MSetNX'])
p('C24','MGet is Get, position by position',
  'MGet(keys) has one slot per requested key, in order, duplicates included; slot i is what Get(keys[i]) returns.',
  'all states and key lists of any length','Unbounded lists, duplicates, expiry in the middle.',[S+':MGet'])
p('C25','Del removes the key and its deadline',
  'After Del(k) the key is absent at every time and a new value stored under it has no deadline; Del returns 1 iff the key was readable; other keys are untouched.',
  'all states and keys','All expiry states.',[D+':Del'])
p('C26','Exists counts live keys',
  'Exists(keys) returns how many of the listed keys are currently readable (counting repeats).',
  'all states, key lists, clocks','Expired but unpurged keys depend on history.',[D+':Exists'])
p('C27','Type tells hashes from strings',
  'Type returns none for an absent key, hash for a key created by the hash calls and string otherwise.',
  'all states and keys','All value kinds.',[D+':Type'])
p('C28','Flush empties the cache',
  'After Flush every key is absent and nothing set later inherits an old deadline.',
  'all states and keys','All states.',[D+':Flush'])
p('C29','The background sweep removes only expired keys',
  'A sweep by the timer started with Cron leaves every unexpired key readable.',
  'all states and clocks','Needs a populated cache with mixed deadlines and a running ticker.',['cache/cachecron.go:cronExpire'])
p('C30','Time-to-live arithmetic',
  'SetEX(k,v,n) makes the key expire n seconds after the call for every positive n; non-positive n leaves no deadline.',
  'all int64 n','Overflow of n*1e9 at extreme n.',[S+':SetEX',U+':expires'])
p('C31','Errors leave the cache unchanged',
  'A string call that returns the wrong-type error has not changed the cache.',
  'all states, all string calls','All value kinds per call.',[S])
p('C32','Only formattable values are ever stored',
  'In every reachable state each key holds text, an integer, a float or a hash, so the string readers fail only on hashes.',
  'all histories','Induction over histories.',[S,H])
p('C33','Reads are pure for every observer',
  'Get, StrLen, GetRange, MGet and Type never change what any later call returns.',
  'all states, all reads, all later histories of string and hash calls','Reads do delete expired entries internally; harmlessness is a statement about all later histories.',[S,U])
# ---------------------------------------------------------------- cache: hashes
p('C34','HGet returns what HSet stored',
  'After HSet(k,f,v) on an absent or hash key without deadline, HGet(k,f) returns v (canonical rendering for numeric v) and every other field is unchanged; HSet returns 1 iff the field was new.',
  'all states, keys, fields, values','All field maps.',[H+':HSet',H+':HGet'])
p('C35','HLen is the number of fields',
  'HLen(k) equals the number of distinct fields readable by HGet in every reachable state.',
  'all histories','Counter kept separately from the map; needs all histories.',[H+':HLen',H+':HExists',H+':HDel',H+':HSet'])
p('C36','HExists is a pure query',
  'HExists(k,f) returns 1 iff HGet finds the field and changes nothing.',
  'all states','All states and later observations.',[H+':HExists'])
p('C37','HDel removes exactly the listed fields',
  'HDel(k,fs) removes every listed field, keeps the others, and returns the number of distinct listed fields that were present.',
  'all states and field lists with repeats','Unbounded lists with duplicates.',[H+':HDel'])
p('C38','A hash with no fields is gone',
  'After deleting the last field the key no longer exists (Redis semantics).',
  'all hashes','Multi-step.',[H+':HDel',D+':Exists'])
p('C39','HIncrBy stores the sum it returns',
  'HIncrBy(k,f,d) returns old+d and HGet(k,f) then shows that number.',
  'all states, integers, deltas','All integer pairs.',[H+':HIncrBy'])
p('C40','HSetNX never overwrites',
  'HSetNX returns 1 and stores the exact text iff the field was absent, else returns 0 and changes nothing.',
  'all states','All states.',[H+':HSetNX'])
p('C41','HMSet then HMGet',
  'HMSet stores every pair regardless of iteration order and returns the number of new fields; HMGet answers position by position like HGet.',
  'all states, maps, orders, field lists','Iteration order randomised; unbounded lists.',[H+':HMSet',H+':HMGet'])
p('C42','HKeys lists every field exactly once',
  'HKeys(k) is a duplicate-free enumeration of the fields, empty for an absent key.',
  'all states','All maps, absent keys included.',[H+':HKeys'])
p('C43','HVals lists every value',
  'HVals(k) has one entry per field, the rendering HGet gives.',
  'all states','Depends on value kinds.',[H+':HVals'])
p('C44','HGetAll returns the whole hash',
  'HGetAll(k) maps every field to what HGet returns; empty for an absent key.',
  'all states','All maps.',[H+':HGetAll'])
p('C45','Hash calls on a string key fail cleanly',
  'Every hash call on a live non-hash key returns the wrong-type error and changes nothing.',
  'all states, all hash calls','All calls and kinds.',[H+':getHashEntry'])
p('C46','HStrLen agrees with HGet',
  'HStrLen(k,f) is the length of what HGet(k,f) returns and 0 when absent.',
  'all states','All kinds.',[H+':HStrLen'])
# ---------------------------------------------------------------- cache: concurrency
p('C47','Lock-protected calls are serializable',
  'Any concurrent execution of Set, SetNX, SetEX, PSetEX, GetSet, Append, SetRange, Incr*, Decr*, Del and Flush from any number of goroutines produces the same results and final cache as running them one after another in some order.',
  'all numbers of goroutines, all programs, all schedules','Exponentially many schedules.',[S,D,'cache/cache.go:Cache'])
p('C48','Concurrent increments are never lost',
  'If any number of goroutines call IncrBy on one integer key in any interleaving, then when all have returned the key holds the initial value plus the sum of all deltas (mod 2^64).',
  'all numbers of goroutines, deltas and schedules','All schedules.',[S+':IncrBy'])
p('C49','Concurrent readers never see an expired value',
  'A Get that starts after the deadline has passed does not return the value, whatever other readers do.',
  'all schedules of concurrent readers','Needs a precise interleaving of two readers.',[S+':Get',U+':expired',U+':get'])
p('C50','Concurrent HSet calls are not lost',
  'When two HSet calls to different fields of one key have both returned, both fields are present.',
  'all schedules','Needs both calls to find the key absent.',[H+':HSet'])
p('C51','A value stored with a fresh deadline survives concurrent readers',
  'When SetEX has returned and its deadline has not passed, the value is readable, whatever MGet or Type calls ran concurrently.',
  'all schedules','Needs a reader paused between its expiry check and its delete.',[S+':MGet',D+':Type',U+':expired'])
p('C52','MSet is atomic',
  'No concurrent reader observes some but not all pairs of one MSet call.',
  'all schedules','Schedule dependent.',[S+':MSet'])
p('C53','Cache calls never deadlock',
  'In every reachable configuration of goroutines running cache calls, some unfinished goroutine can take a step, and no finished call leaves the lock held.',
  'all schedules and numbers of goroutines','All schedules.',['cache/cache.go:Cache',S])
# ---------------------------------------------------------------- strconv-level facts used by everything
p('C54','Integers survive text conversion',
  'Every int64 written as decimal text parses back to itself, and two different int64 have different text.',
  'all int64','2^64 values.',[S+':tryInt64',S+':fmtString'])
# ---------------------------------------------------------------- RESP
p('C55','Requests carry arbitrary bytes',
  'The bytes sent for any command decode, by the RESP grammar, to exactly the argument list given, whatever bytes the arguments contain, and consume exactly those bytes.',
  'all argument lists of arbitrary byte strings, any following bytes','All byte strings including CR/LF and protocol markers.',['redis/redis.go:ConvertToMessage','redis/protocol.go:Serialize'])
p('C56','RESP encoding is unambiguous',
  'No two different well-formed messages have encodings such that one is a prefix of the other.',
  'all pairs of well-formed messages','Pairs of unbounded trees.',['redis/protocol.go'])
p('C57','A reply that has fully arrived is read exactly',
  'If the bytes of a well-formed reply are already buffered, receiving returns that message and leaves exactly the following bytes unread.',
  'all well-formed messages (nested arrays of any depth), any following bytes','Unbounded trees.',['redis/conn.go:readMessage'])
p('C58','Replies are read the same however the network splits them',
  'For every way the transport chunks the byte stream, receiving returns the same message.',
  'all messages and all chunkings','All chunkings; loopback tests deliver one chunk.',['redis/conn.go:readMessage','redis/conn.go:Recv'])
p('C59','A malformed reply yields an error, never a crash',
  'For every byte stream, receiving returns a message or an error; it never panics.',
  'all byte streams and chunkings','All byte streams.',['redis/conn.go:readMessage'])
p('C60','A truncated reply is an error',
  'If the stream ends before the reply is complete, receiving returns an error.',
  'all proper prefixes of encodings','All cut points.',['redis/conn.go:readMessage'])
p('C61','Receiving always terminates and makes progress',
  'On every finite stream receiving finishes after consuming at least one byte or reports end of stream, even for huge array counts and deep nesting.',
  'all streams and chunkings','Termination is not testable.',['redis/conn.go:readMessage'])
p('C62','Snapshot transfer is byte-exact',
  'However the network splits it, the snapshot transfer writes exactly the announced number of payload bytes to the file, in order, and leaves the stream right behind them.',
  'all payloads and chunkings','All chunkings of unbounded payloads.',['redis/conn.go:ReadWithWriter','redis/replication.go:sync'])
p('C63','Pipelined replies are matched in order',
  'Receiving n times from a stream of n fully buffered well-formed replies returns them in order.',
  'all message lists','Unbounded lists.',['redis/conn.go:Recv'])
# ---------------------------------------------------------------- client commands
p('C64','Remote string reads decode faithfully',
  'For every reply the client Get returns: the payload for a bulk string, an error for nil, an error for an error reply.',
  'all replies','All replies.',['redis/conn.go:ExecCommand','redis/command.go:StringCommand'])
p('C65','Remote Set returns OK',
  'On an OK reply the client Set returns ("OK", nil).',
  'all keys and values','Universal.',['redis/command.go:OKCommand'])
p('C66','Remote SetNX reports the outcome',
  'The client SetNX returns no error when the server answers with an integer.',
  'all keys, values and integer replies','Universal.',['redis/redis.go:SetNX','redis/command.go:OKCommand'])
p('C67','Remote SetEX/PSetEX/IncrBy send the command they are named after',
  'The request sent by client SetEX is SETEX key seconds value, PSETEX likewise, IncrBy is INCRBY key delta.',
  'all arguments','Needs the wire contract for all arguments.',['redis/redis.go:SetEX','redis/redis.go:PSetEX','redis/redis.go:IncrBy'])
p('C68','Remote IncrByFloat returns the server value',
  'The client IncrByFloat returns the float the server replied.',
  'all float replies','Universal.',['redis/command.go:FloatCommand'])
p('C69','Remote integer commands return the server integer',
  'For an integer reply n the integer commands return (n,nil); any other reply is an error.',
  'all replies','All replies.',['redis/command.go:IntCommand'])
p('C70','Remote MGet is positional',
  'For an array reply MGet returns one slot per element in order: text for strings and integers, an error for nil and error elements.',
  'all array replies','Unbounded arrays.',['redis/command.go:InterfaceArrayCommand'])
p('C71','A command never receives the reply of an earlier command',
  'On one connection, each command returns the result of its own reply.',
  'all pairs of commands and chunkings','Needs a particular split of the first reply.',['redis/conn.go:SendAndWaitReply','redis/pool.go:ExecCommand'])
# ---------------------------------------------------------------- pool
p('C72','Pool size bound and exclusive use',
  'In every interleaving at most capacity connections are pooled or lent, and no connection is lent to two goroutines at once.',
  'all numbers of goroutines and schedules','All schedules.',['redis/pool.go:Get','redis/pool.go:Put'])
p('C73','Returning a connection never blocks',
  'Put of a borrowed connection, and the hand-over inside Get, always find room in the pool.',
  'all schedules','All schedules.',['redis/pool.go:Put'])
p('C74','A failed dial does not disable the pool',
  'After a Get that failed to connect, later Get calls still return (a connection or an error).',
  'all schedules with dial failures','Needs a failing server and a second caller.',['redis/pool.go:Get'])
p('C75','Pool.Close returns',
  'Close closes all idle connections and returns.',
  'all pool states','Blocking forever cannot be observed by a finite test.',['redis/pool.go:Close'])
p('C76','No deadlock while dialing succeeds',
  'If no dial has failed, then in every reachable configuration either some pool call can take a step or every connection is lent out and not yet returned.',
  'all schedules','All schedules.',['redis/pool.go'])
# ---------------------------------------------------------------- RDB
p('C77','RDB lengths decode',
  'Every length n < 2^64 encoded as in the RDB format is read back as n and exactly its bytes are consumed.',
  'all n < 2^64','Lengths of 16384 and more need big files.',['redis/rdb/rdb.go:LoadLen'])
p('C78','RDB integer strings decode',
  'A string stored in the RDB 8/16/32-bit integer encoding is read as the decimal text of that signed integer.',
  'all integers of the three widths','2^32 values.',['redis/rdb/rdb.go:LoadString'])
p('C79','RDB raw strings decode at any position',
  'A raw string of any length is read back byte for byte wherever it lies in the file.',
  'all strings and file positions','Depends on the position relative to the 4096-byte read buffer.',['redis/rdb/rdb.go:LoadString'])
p('C80','RDB compressed strings decode',
  'An LZF-compressed string in the RDB format is read back as the original text.',
  'all texts and all valid compressions','All token streams.',['redis/rdb/rdb.go:LoadString','redis/lzf/lzf.go:DeCompress'])
p('C81','Binary sorted-set scores decode',
  'A score stored in the binary double encoding is read back as that double.',
  'all doubles','2^64 values.',['redis/rdb/rdb.go:LoadBinaryDouble'])
p('C82','Infinite and NaN scores decode',
  'The RDB markers for +inf, -inf and NaN are read as those values.',
  'the three markers','Finite, but against IEEE semantics.',['redis/rdb/rdb.go:LoadDouble'])
p('C83','Snapshot replay of string keys',
  'Loading a snapshot of any number of short string keys (spread over any databases) emits exactly one set command per key with that key and value, tagged with the right database, in file order.',
  'all lists of databases and key/value pairs within the supported sizes','Unbounded snapshots.',['redis/replication.go:Load'])
p('C84','A successful load has loaded everything',
  'If Load reports success then every key of the snapshot was emitted.',
  'all snapshots','Needs snapshots with unsupported types in the middle.',['redis/replication.go:Load'])
p('C85','Hash keys are replayed as hashes',
  'A snapshot key of plain hash type is replayed by a hash-setting command.',
  'all hashes','Universal.',['redis/replication.go:Load'])
p('C86','Expiry in seconds is converted to milliseconds',
  'A key with a seconds deadline t is replayed with deadline 1000*t milliseconds.',
  'all 32-bit t','Overflow only for t >= 4294968.',['redis/replication.go:Load'])
p('C87','List order is preserved',
  'A snapshot list is replayed so that the resulting list has the same order.',
  'all lists','Universal over lists.',['redis/replication.go:Load'])
# ---------------------------------------------------------------- packed encodings
p('C88','Integer sets decode',
  'Every intset of signed 16/32/64-bit integers decodes to the same integers in order.',
  'all lists of integers per width','All values and lengths.',['redis/intset/intset.go:Load'])
p('C89','Ziplists decode',
  'Every ziplist of strings and integers decodes to the same list of texts.',
  'all entry lists','All encodings and lengths.',['redis/ziplist/ziplist.go:Load'])
p('C90','Zipmaps decode',
  'Every zipmap decodes to the same field/value map.',
  'all field/value lists','Needs two or more entries.',['redis/zipmap/zipmap.go:Load'])
p('C91','A built zipmap can be read back',
  'After Set calls on a new zipmap, Lookup finds exactly the keys set, and Load returns the pairs.',
  'all key/value sequences','All byte contents.',['redis/zipmap/zipmap.go:Set','redis/zipmap/zipmap.go:Lookup','redis/zipmap/zipmap.go:Load'])
# ---------------------------------------------------------------- LZF
p('C92','LZF round trip',
  'DeCompress(Compress(s), len(s)) = s.',
  'all byte strings s, and all contents of the uninitialised hash table','The match finder depends on uninitialised memory and on the whole input.',['redis/lzf/lzf_c.c:lzf_compress','redis/lzf/lzf_d.c:lzf_decompress','redis/lzf/lzf.go'])
p('C93','The LZF compressor stays inside its buffers',
  'For every input of at least two bytes, every hash table content and every output size, the compressor never reads outside the input or writes outside the output.',
  'all inputs, table contents, output sizes','Memory safety for all inputs.',['redis/lzf/lzf_c.c:lzf_compress'])
p('C94','The LZF decompressor stays inside its buffers',
  'For every (also corrupt) non-empty input and every output size the decompressor never reads outside the input or the already written output, nor writes outside the output buffer, and terminates.',
  'all inputs and output sizes','All corrupt inputs.',['redis/lzf/lzf_d.c:lzf_decompress'])
p('C95','The LZF decompressor implements the format',
  'A stream of literal and back-reference tokens decodes to exactly the text those tokens denote whenever it fits the output size.',
  'all token streams','Unbounded streams, overlapping copies.',['redis/lzf/lzf_d.c:lzf_decompress'])
p('C96','Corrupt compressed data is reported',
  'DeCompress never returns corrupt input as if it were decoded text.',
  'all inputs','All corrupt inputs.',['redis/lzf/lzf.go:DeCompress'])
# ---------------------------------------------------------------- replication, client
p('C97','Replicated commands are applied in order',
  'The commands received from the master for the selected database are applied to the cache in the order received, each exactly once.',
  'all message sequences and schedules','All schedules.',['xxcache.go:handleReplication'])
p('C98','Every replicated write takes effect',
  'Every write command in the stream (set, hmset, rpush, expire, del ...) is reflected in the cache or reported.',
  'all commands','All commands.',['cache/message.go:HandleMessage'])
p('C99','A malformed replicated command is an error, not a crash',
  'HandleMessage returns an error for every message it cannot apply.',
  'all messages','All arities.',['cache/message.go:HandleMessage'])
p('C100','Replication errors do not stop replication',
  'After any number of messages that cannot be applied, the replication loop still processes later messages.',
  'all schedules','Needs two errors before the error channel is drained.',['xxcache.go:handleReplication'])
p('C101','Only the selected database is mirrored',
  'Commands of the live stream that belong to another database are not applied.',
  'all streams','Needs SELECT in the stream.',['redis/replication.go:WaitForMessage','xxcache.go:handleReplication'])
p('C102','A client created by New answers reads',
  'On a client returned by New, Get returns a value or an error for every key.',
  'all keys','Universal.',['xxcache.go:New','command.go:Get'])
p('C103','Only keepalive pings are skipped',
  'Every message of the live stream other than a PING is forwarded for application.',
  'all messages','All messages.',['redis/replication.go:WaitForMessage'])
# ---------------------------------------------------------------- added while the model grew
p('C104','Concurrent calls never crash the process',
  'No interleaving of any cache calls other than HKeys, HVals and HGetAll (see C42) and SetRange with an offset above 2^48 (see C11) makes a goroutine panic, even while keys are deleted, flushed or replaced by values of another kind.',
  'all ready caches, all numbers of goroutines, calls and schedules','Schedule dependent.',[S,H,D,U])
p('C105','Without deadlines readers and writers are linearizable together',
  'As long as no key has a deadline, any concurrent execution of the string writers (except SetEX and PSetEX), Del and Flush together with Get, StrLen, GetRange, Type and single-key Exists and MGet has the same replies and final cache as some one-after-another order that respects real time.',
  'all caches without deadlines, all numbers of goroutines, calls and schedules','Exponentially many schedules.',[S,D,U])
p('C106','A caller waits only when the pool is exhausted',
  'No goroutine waits for a connection while none is idle and fewer than capacity connections exist.',
  'all schedules','Needs a caller that takes the connection another caller has just opened.',['redis/pool.go:Get'])
p('C107','Loading a snapshot always ends',
  'Load returns (or the process ends) on every file, however corrupt; it never loops.',
  'all byte sequences in all chunkings','All corrupt files.',['redis/replication.go:Load'])
p('C108','The replication position is taken from the snapshot',
  'After a successful load the replication id and offset are those of the snapshot\'s last repl-id and repl-offset fields.',
  'all snapshots','The field may lie anywhere in the file.',['redis/replication.go:Load'])
p('C109','Deadlines keep their instant',
  'The deadline t (Unix milliseconds) of a key in the snapshot is replayed by a command that makes the key expire at t, whenever it is executed.',
  'all deadlines and execution times','All times.',['redis/replication.go:Load'])
p('C110','Sorted sets are replayed with their scores',
  'A sorted set in the snapshot is replayed by a ZADD command that adds each member with its score.',
  'all sorted sets','All members and scores.',['redis/replication.go:Load'])
p('C111','The handshake saves the snapshot',
  'When the master answers PONG and a bulk snapshot, SyncWithRedis sends exactly PING and SYNC, saves exactly the snapshot, and leaves exactly the live stream to be read, however the bytes are split into network reads.',
  'all snapshots, live streams and chunkings','All chunkings, and live data in the same read as the snapshot.',['redis/replication.go:SyncWithRedis'])
p('C112','A refused synchronisation is an error',
  'If the master answers PING or SYNC with anything but PONG and a whole snapshot, SyncWithRedis returns an error.',
  'all replies','All replies.',['redis/replication.go:SyncWithRedis','redis/protocol.go:ReadWithWriter'])
p('C113','The cache mirrors the snapshot and the stream',
  'Whenever the client has handled everything received, its cache holds what setting the string keys of database 0 of the snapshot in file order, and then executing the live SET commands in order, makes of it.',
  'all string snapshots, live streams, chunkings and schedules','All schedules of three goroutines.',['xxcache.go:New','xxcache.go:handleReplication','redis/replication.go:Load','redis/replication.go:WaitForMessage'])
p('C114','After the connection ends the handler rests',
  'When the stream has ended and everything received was handled, the replication handler waits.',
  'all schedules','Needs the connection to end.',['xxcache.go:handleReplication','redis/replication.go:WaitForMessage'])
p('C115','The message queue is bounded',
  'At most 10000 received messages wait for the handler; a full queue delays the senders and drops nothing (see C97).',
  'all schedules','Needs a burst of more than 10000 messages and a slow handler.',['redis/replication.go:SyncWithRedis','redis/replication.go:WaitForMessage','xxcache.go:handleReplication'])
p('C116','Each replication error is logged once',
  'Every error of HandleMessage, of an ack and of the stream is logged at most once, and at any time at most four of them are not logged yet.',
  'all schedules','All interleavings of three senders on a channel of capacity 1.',['xxcache.go:handleReplication','redis/replication.go:WaitForMessage','redis/replication.go:Ack'])
p('C117','New reports how the load ended',
  'New returns without error exactly if Load did; it returns only after everything Load found was sent to the handler, and the live stream is read only after a successful load.',
  'all snapshots, streams and schedules','All snapshots and schedules.',['xxcache.go:New'])
p('C118','Remote map replies are decoded pair by pair',
  'An array reply of even length is decoded to the map from each element at an even position to its successor, the last occurrence of a field counting; every other reply is an error.',
  'all replies','All reply shapes.',['redis/command.go:StringStringCommand.Parse'])
p('C119','HIncrByFloat stores the sum it returns',
  'After HIncrByFloat(k,f,d) returned x, HGet(k,f) shows x, and a further HIncrByFloat adds to x.',
  'all states, fields and increments','All floats.',['cache/cachehash.go:HIncrByFloat'])
p('C120','A value read and written back reads the same',
  'If Get(k) returns v, then after Set(k2,v) Get(k2) returns v.',
  'all states reachable with any calls','Values of all kinds and their texts.',['cache/cachestring.go:Set','cache/cachestring.go:Get','cache/cacheutil.go:tryInt64'])
p('C121','Get shows the number IncrByFloat returned',
  'After IncrByFloat returned x, the text Get returns parses to exactly x.',
  'all reachable states, all floats','Shortest decimal texts of all floats.',['cache/cachestring.go:IncrByFloat','cache/cachestring.go:Get'])

p('C122','Concurrent remote commands get their own results',
  'Whatever goroutines share a Redis client, on each connection the commands run one at a time: their results are those of a single caller executing the same commands in the same order, each method returns the result of its own command, and with replies that arrive whole each command gets its own reply.',
  'all schedules, numbers of goroutines, options, commands and server streams','All interleavings of sends and receives on shared connections.',['redis/pool.go:ExecCommand','redis/conn.go:ExecCommand','redis/redis.go:process'])
p('C123','A connection is greeted before it is used',
  'The bytes sent on a connection begin with AUTH, if a password is set, and SELECT, if the database is positive; commands follow only after the server has answered both without an error. If it refuses, the call returns its error and the connection is not used.',
  'all options, schedules and server streams','All interleavings and replies.',['redis/redis.go:NewClient','redis/pool.go:create'])
p('C124','Select applies to later commands',
  'A command executed after a successful Select works on the selected database.',
  'all schedules, options and commands','Depends on which pooled connection is handed out.',['redis/redis.go:Select','redis/pool.go:Get'])
p('C125','A broken connection is replaced',
  'After the server has closed a connection, later commands use a new one.',
  'all schedules','Needs a server that closes idle connections.',['redis/pool.go:ExecCommand','redis/pool.go:Put'])

p('C126','Module auxiliary records are skipped',
  'A module auxiliary record in a snapshot is passed over: Load sends what it sends for the snapshot without the record.',
  'all snapshots and records','No test server loads a module with auxiliary data.',['redis/replication.go:Load'])
p('C127','A cut-off snapshot replays a prefix of the whole',
  'What Load sends for the first bytes of a snapshot is the first part of what it sends for the whole snapshot.',
  'all snapshots and all places to cut them','All cut positions of all snapshots.',['redis/replication.go:Load','redis/rdb/rdb.go:LoadString'])

p('C128','A value written through the client is read back',
  'After Client.Set(k,v) returned without error, Client.Get(k) returns v.',
  'all snapshots, streams, schedules, keys and values','All interleavings of user and replication goroutines.',['xxcache.go:New','command.go:Get','command.go:Set','xxcache.go:handleReplication'])
p('C129','Get is answered locally and Set remotely',
  'Client.Get sends nothing and reads nothing from the server; Client.Set, at every moment of its run, leaves the cache as it is.',
  'all states and schedules','Absence of traffic in all states.',['command.go:Get','command.go:Set'])
p('C130','Set fails after a failed New',
  'If New returned an error, Set on the returned client returns an error.',
  'all snapshots, streams and schedules','All ways in which New can fail.',['xxcache.go:New','command.go:Set'])
p('C131','Stop ends the mirroring',
  'After Stop no message changes the cache any more.',
  'all executions','All points at which Stop may be called.',['xxcache.go:Stop','xxcache.go:handleReplication'])
p('C132','Client.Set is a pooled SET command',
  'The calls of Client.Set behave as those of a Redis client without password and database: on each connection there are only SET commands, and each Set returns the result of its own command.',
  'all schedules, numbers of goroutines and server streams','All interleavings.',['command.go:Set','xxcache.go:New','redis/redis.go:Set'])
p('C133','New uses the configured address and file',
  'Replication and Redis client use the configured address, or 127.0.0.1:6379 if it is empty; the snapshot is saved to the configured file, or temp.rdb; the mirrored database is that of the option.',
  'all options','All options.',['xxcache.go:New','xxcache.go:prepareOption'])
p('C134','List entries keep the order of appends',
  'After any sequence of AppendHead and AppendTail on any number of entries, each entry holds its own values, those appended at the head in reverse order before those appended at the tail in order.',
  'all sequences, entries and slice growth policies','All sequences and growth policies.',['cache/cachelist.go:AppendTail','cache/cachelist.go:AppendHead'])
p('C135','Copies of a list entry are independent',
  'An append to a copy of a list entry does not change the original, and vice versa.',
  'all sequences of appends and copies, all slice growth policies','Depends on the capacity of the backing array.',['cache/cachelist.go:AppendTail','cache/cachelist.go:AppendHead'])
p('C136','Pushed values can be read back from a list',
  'After RPush(k, v...) on an absent key, LRange(k,0,-1) returns v....',
  'all keys and values','All keys and values.',['cache/cachelist.go:RPush','cache/cachelist.go:LRange'])

p('C137','A replica acknowledges what it has received',
  'Every second after New has returned, the replica sends REPLCONF ACK n, where n is the replication offset of the snapshot plus the number of bytes of the stream received since; it sends nothing else.',
  'all snapshots, streams and schedules','All streams and moments.',['redis/replication.go:Ack','redis/replication.go:ack','redis/replication.go:SetReplicationOffset'])
p('C138','Idle connections are used in turn',
  'A connection that is put back goes behind all idle ones, and of two idle connections the one that was put back first is handed out first.',
  'all schedules of Get and Put, all capacities, dial failures and cancellations','All interleavings.',['redis/pool.go:Get','redis/pool.go:Put','redis/pool.go:create'])
p('C139','No connection is lost',
  'Whatever Gets are cancelled and whatever dials fail: once all connections are put back and nobody is inside a call, every connection that was ever opened is idle in the pool.',
  'all schedules of Get and Put, all capacities','All interleavings and points of cancellation.',['redis/pool.go:Get','redis/pool.go:create','redis/pool.go:Put'])
p('C140','A closed pool can be used again',
  'After Close, Get opens new connections, up to the capacity.',
  'all schedules and capacities','All interleavings.',['redis/pool.go:Close','redis/pool.go:create'])
p('C141','A closed connection is not used',
  'A connection that Close closes is in nobody\'s hands, and is never handed out again.',
  'all schedules and capacities','All interleavings of Close with Get and Put.',['redis/pool.go:Close','redis/pool.go:Get'])

p('C142','A malformed reply harms only the command it answers',
  'Whatever a server sends in reply to one goroutine\'s command, the other goroutines that share the client continue unharmed.',
  'all schedules, options, commands and server streams','All byte streams at all points of all interleavings.',['redis/conn.go:readBulkString','redis/conn.go:readProtocol','redis/pool.go:ExecCommand'])
p('C143','Concurrent Incr calls draw distinct numbers',
  'Any number of goroutines calling Incr on one key are answered with the numbers that follow the old value, no two alike; a call that starts after another was answered gets a larger number; when all have returned the numbers are consecutive and the key holds the last.',
  'all numbers of goroutines, schedules, clocks and start values without overflow','Exponentially many schedules.',[S])
p('C144','Concurrent SetNX has one winner',
  'Of any number of goroutines calling SetNX on a missing key at most one is answered 1; when all have returned exactly one was, and the key holds its value. No two readers ever see different values.',
  'all numbers of goroutines, values, schedules and clocks','Exponentially many schedules.',[S])
p('C145','Concurrent Del reports one deletion',
  'Of any number of goroutines deleting one existing key exactly one is answered 1 and the others 0.',
  'all numbers of goroutines, schedules and clocks','Exponentially many schedules.',[D])
p('C146','Concurrent GetSet hands every value on once',
  'Whatever goroutines call GetSet on one key: what they receive and what the key shows at the end are what the key showed at first and the values they gave, each exactly once.',
  'all numbers of goroutines, values, schedules and clocks','Exponentially many schedules.',[S])
p('C147','Concurrent Append loses nothing',
  'Pieces appended to one key by any number of goroutines all end up in it, one after the other; every caller is answered the length up to its own piece, and readers see the pieces so far.',
  'all numbers of goroutines, values that are not reformatted as numbers, schedules and clocks','Exponentially many schedules.',[S])
p('C148','Reads see writes',
  'With any number of goroutines setting and getting one key, a Get is answered with the first value or one given to a Set, and once a Set has returned, a Get that starts later is answered with a value given to a Set.',
  'all numbers of goroutines, values, schedules and clocks','Exponentially many schedules.',[S])
p('C149','Every call returns',
  'Whatever the goroutines have done so far, the calls in progress can all be finished by their own steps, and when no new call starts no schedule keeps them busy for ever. Calls that may panic (HKeys, HVals, HGetAll, and SetRange with an offset above 2^48) are left out of the first part.',
  'all numbers of goroutines, calls, schedules and clocks','Infinite runs.',[S,H,D])
p('C150','No reader goes back',
  'With one goroutine setting a key and any number getting it, every Get is answered with the value after some number of the sets, at least those returned before it and at most those called before its answer, and a Get that starts after another was answered never sees an older one.',
  'all numbers of readers, values, schedules and clocks','Exponentially many schedules.',[S])
p('C151','The zipmap methods answer from its content',
  'After Set(k,v) on a new zipmap Get(k) returns v, iteration yields k, Len is 1, BlobLen is the number of bytes, and Lookup(k) fails after Del(k).',
  'all keys and values','All byte contents.',['redis/zipmap/zipmap.go:Get','redis/zipmap/zipmap.go:Del','redis/zipmap/zipmap.go:Len','redis/zipmap/zipmap.go:BlobLen','redis/zipmap/zipmap.go:Iterate'])
p('C152','A listing of a hash shows one moment',
  'HVals(k), HKeys(k) and HMGet(k, ..) called while other goroutines write fields show the hash as it was at one moment between call and return; in particular a field whose HSet returned before is shown.',
  'all fields, values, numbers of goroutines and schedules','Needs writes placed between two loads of one call.',[H+':HVals',H+':HKeys',H+':HMGet'])
p('C153','HGet shows only what was written',
  'While a key keeps holding one hash, every HGet of a field is answered with the value it had at first or a value some call stored in it, and with key-not-found only if it was absent at first or some HDel names it.',
  'all fields, values, numbers of goroutines and schedules','Exponentially many schedules.',[H+':HGet',H+':HSet',H+':HMSet'])
p('C154','HKeys lists the fields there are',
  'While a key keeps holding one hash, HKeys lists every field that was there at first and that no HDel names, and no field that was neither there at first nor written by some call.',
  'all fields, numbers of goroutines and schedules','Exponentially many schedules.',[H+':HKeys',H+':HSet',H+':HDel'])
p('C155','HLen is right when several goroutines add fields',
  'When goroutines have added fields to one hash and their calls have returned, HLen is the number of fields HKeys lists.',
  'all numbers of goroutines, fields and schedules','A lost update needs two goroutines between the same two statements.',[H+':HLen',H+':HSet',H+':HSetNX'])
p('C156','Goroutines on different keys do not disturb each other',
  'If two groups of goroutines never name a key of the other group, then removing one group from an execution leaves a possible execution in which the other group makes the same calls at the same clock readings and gets the same replies.',
  'all key sets, numbers of goroutines, calls (locked and unlocked), clock movements and schedules','A test sees a few schedules; a shared map, lock or hash entry could leak between keys in any other.',[H+':HSet',S+':Set',U+':expired'])
p('C157','A goroutine with keys of its own sees a sequential cache',
  'A goroutine whose keys nobody else names gets, for its finished calls, the replies of the same calls made one after the other on a cache of its own.',
  'all calls, numbers of other goroutines and schedules in which the clock stands during its calls','Unlocked calls are safe only because no other goroutine touches the key; tests cannot try every interleaving.',[H+':HSet',H+':HIncrBy',S+':MSet'])
p('C158','Compress returns the compressed text whenever that is shorter',
  'If the compressor, given a buffer of any size, produces r bytes and 0 < r < len(s), then Compress(s) returns these r bytes and not s.',
  'all byte strings, buffer sizes and contents of the uninitialised hash table','Whether the compressor gives up depends on the last few bytes of room it has.',['redis/lzf/lzf.go:Compress','redis/lzf/lzf_c.c:lzf_compress'])
p('C159','zipmap.Len is the number of bytes an entry takes',
  'Len(key, value) is the size of the entry in the zipmap format without spare bytes, and Set(key, value) of a new key adds that many bytes.',
  'all zipmaps, keys and values','Both sides of the length 254, for key and value.',['redis/zipmap/zipmap.go:Len','redis/zipmap/zipmap.go:Set'])
p('C160','Histories on different keys commute',
  'If two histories name no common key, every way of interleaving them gives each of them the replies it gets alone and leaves caches that no later history can tell apart; in particular two calls on different keys commute.',
  'all caches, histories (hash, string and multi-key calls), times and interleavings','All pairs of histories and all interleavings.',[S,H,D])
p('C161','SetEX, PSetEX and Del make the past of a key unobservable',
  'After any history on one key, SetEX(k, v, n), PSetEX(k, v, n) or Del(k) leaves the cache as it would have without that history.',
  'all caches, histories, values, durations and times','All histories before and after.',[S+':SetEX',S+':PSetEX',D+':Del'])
p('C162','Counting calls add up',
  'IncrBy(k, a) followed by IncrBy(k, b) is IncrBy(k, a+b), with the sum wrapped to int64; Incr, Decr and DecrBy(d) are IncrBy of 1, -1 and -d. Replies and all later observations agree, also when they fail.',
  'all caches, keys, increments and times','All int64 pairs, all stored types.',[S+':IncrBy',S+':DecrBy',S+':Incr',S+':Decr'])
p('C163','Append piece by piece',
  'Append(k, a) followed by Append(k, b) is Append(k, a+b).',
  'all caches, keys and texts','All splits of all texts.',[S+':Append'])
p('C164','A call on several keys or fields is the calls on each of them',
  'MSetNX, Exists, HDel and HMSet have the effect of SetNX, Exists, HDel and HSet on their arguments one by one, and answer the sum of the answers.',
  'all caches, argument lists (also with repetitions, not empty for hashes) and times','All lists, with repetitions.',[S+':MSetNX',D+':Exists',H+':HDel',H+':HMSet'])
p('C165','SetEX counts seconds, PSetEX milliseconds',
  'SetEX(k, v, n) is PSetEX(k, v, 1000 n), with the product wrapped to int64.',
  'all caches, values, durations and times','All int64 durations, including those that overflow.',[S+':SetEX',S+':PSetEX'])
p('C166','A conditional write that applies is the plain write',
  'When the key or field is absent, SetNX has the effect of Set, MSetNX that of MSet, and HSetNX that of HSet.',
  'all caches, keys, fields and values','All later observations.',[S+':SetNX',S+':MSetNX',H+':HSetNX'])
p('C167','SetRange at the end of a text is Append',
  'When StrLen(k) is n, SetRange(k, n, r) and Append(k, r) give the same reply and leave caches nobody can tell apart.',
  'all caches, keys, texts and times','All later observations.',[S+':SetRange',S+':Append'])
p('C168','The cache answers like a reference store',
  'Every history of calls returns, and gets the replies of a reference store in which a key holds a text or a hash of texts and perhaps a deadline, past which it does not exist.',
  'all histories of all 37 calls from an empty cache, all times','All histories: every combination of calls, values, types and deadlines.',[S,H,D])
p('C169','Goroutines share one reference store',
  'In every concurrent execution of text calls (no numbers, no deadlines) the replies are those the reference store gives to the calls one after the other, in an order in which each call stands between its invocation and its return.',
  'all executions of any number of goroutines, all interleavings of single steps','All interleavings.',[S,D])
p('C170','Goroutines share one reference store, counters included',
  'As C169 for texts and counters (each key is used as one or the other): the replies are those of the reference store in some order of the calls that respects their invocations and returns, with exact sums as long as the amounts given to all calls together stay below 2^63.',
  'all executions of any number of goroutines, all interleavings of single steps','All interleavings and all amounts.',[S,D])
p('C171','Reads through the client follow the history of the master',
  'Every Get of the client shows its key as of some point of what the master sent, the snapshot in file order and then the stream, and later Gets never an earlier point.',
  'all snapshots, streams, schedules of load, receiver and handler, all chunkings','From the bytes on the wire to the reply of Get, for every schedule.',['xxcache.go','redis/replication.go','cache/message.go',S])
p('C172','A call on several keys is its calls on one key, one after the other',
  'In every execution MSet, MSetNX, MGet and Exists on several keys have the effects and replies of the same call made for each key alone, in order, between the invocation and the return of the whole call.',
  'all worlds, all calls of all goroutines, all interleavings','All schedules and all other calls in between.',[S,D])
p('C173','MGet and Exists show one moment',
  'The reply of an MGet or an Exists on several keys is that of one moment between its invocation and its return.',
  'all executions of calls without durations','Needs a write between the looks at two keys.',[S,D])
p('C174','MSet and MSetNX, key by key, take effect at one moment each',
  'Every write of an MSet or MSetNX takes effect at one moment between the invocation and the return of the call, whatever other calls run, and stays until the key is written again.',
  'all executions of calls without durations, all interleavings','MSet takes no lock; the loss needs it to run inside another call.',[S])
p('C175','An operation that overlaps a Flush comes before or after it',
  'A call may read the pointer to a dictionary, a Flush may replace it, and the call then uses the old dictionary; callers observe exactly the same histories as if pointer and dictionary were used in one step.',
  'all calls, all schedules of any number of goroutines, from every cache with dictionaries','Needs a Flush between two machine steps of another call, and all schedules.',[D,'cache/database.go','cache/cache.go'])
p('C176','Calls on the fields of a hash take effect at one moment each',
  'Calls of HSet, HSetNX, HGet, HStrLen, HExists, and HMSet or HMGet with one field, on hashes that exist and have no deadline, reply as if they ran one after the other in an order that respects returns; none of them waits; HDel, HIncrBy, HIncrByFloat, several fields, lists of fields, HLen and new hashes have schedules that fit no order.',
  'all such calls, all schedules of any number of goroutines, all prepared caches','HSet looks for the field and stores it in two steps; only some interleavings with HDel or HIncrBy show it.',[H])
p('C177','Only the order of lists depends on how sync.Map.Range visits keys',
  'With any Range that its documentation allows, calls made one after the other reply as the model says up to the order of the lists of HKeys and HVals, and leave the same cache; each order of the fields is possible.',
  'all calls and histories, all prepared caches, all orders of visits','sync.Map uses one order per process and version of Go; other orders are not exercised by a test.',[H,D])
p('C178','Lists of a hash while fields change, with any Range that is allowed',
  'HKeys on a hash that is neither replaced nor expired lists no field twice, lists only fields that were there or that some call stored, and leaves out only fields that were absent or that some call deletes; HVals shows the value of a field that no call touches; the schedules of the model are among these executions.',
  'all calls that keep the key, all schedules of any number of goroutines, all visits that the documentation allows','Range overlaps stores and deletes; tests see one order and few overlaps.',[H])
p('C179','Names of keys and fields do not matter',
  'Put other names for keys and fields, one for one: every history and every execution of goroutines gets the same replies and crashes, with the new names in HKeys, up to the order of the lists of HKeys and HVals.',
  'all one-to-one renamings, all histories, all schedules of any number of goroutines','A key that is treated in a special way (a prefix, a reserved name, an empty or binary key) is found by a test only if the test uses it.',[S,H,D])
p('C180','Only differences of time matter',
  'Moving the clock and all deadlines by the same amount changes no reply of any history or schedule, and moves the resulting deadlines by that amount.',
  'all amounts, all calls, all histories and schedules, all times after the year 1','A dependence on the time of day needs a test at that time; relative expiry is tested with the clock of the test machine.',[S,U,'cache/cachecron.go'])
p('C181','Only the contents of a cache matter',
  'Two caches that hold the same values, deadlines, fields and counters answer every history and every execution of goroutines alike, can take and fail at the same steps, and end with the same contents, whatever the order in which their hashes were made.',
  'all pairs of caches with the same contents, all histories, all schedules of any number of goroutines, all orders of sync.Map.Range','A hash shared by mistake between two keys, or a leftover of a deleted one that is used again, shows only for some order of creation.',[S,H,D,U])
p('C182','Replies show all contents',
  'One caller cannot tell two caches apart exactly if they have the same contents (value and kind at each key, deadlines also of keys with no value, every field with its kind, the counter of each hash); what one caller cannot tell apart, goroutines cannot.',
  'all pairs of caches made by any calls with arguments of Go types, all histories, all schedules','That nothing is hidden is a statement about all pairs of states and all ways to tell them apart.',[S,H,D,U])
p('C183','Only Flush against unlocked calls, and two uses of the length of one hash, can race',
  'In every execution of goroutines, if two of them are about to touch the same unsynchronised memory and one to write it, then one is in Flush and the other in a call that takes no lock, or both are in calls that use the length of the hash at one key (HSet, HSetNX, HExists, HDel, HIncrBy, HIncrByFloat, HMSet write it, HLen reads it) and one writes; conflicting uses at any distance are otherwise ordered by a release and a later acquisition of the lock.',
  'all ready caches, all schedules of any number of goroutines and calls','The race detector sees only the accesses of the schedules that ran; absence of races for all other pairs of calls needs all schedules.',[S,H,D,U])
p('C184','Each of these pairs does race',
  'For calls that name at least one key, field or pair: some goroutines on a new cache come to a data race between a call a and a call b if and only if a and b are one of the pairs of C183.',
  'all pairs of calls with all arguments','Whether a pair can race depends on a schedule that brings both to the access at once, in one case with the help of a third goroutine.',[S,H,D,U])
p('C185','The pool works the same when each access to its fields is a step of its own',
  'If counting a new connection and every copy of the pool made by a value receiver (create, the deferred Put, Close) are steps that other goroutines can come between, the calls still return exactly the results, in the orders, that they return when these are done at once.',
  'all schedules of Get, Put, Close, Exec, ExecCommand, all capacities, dial failures and cancellations','All interleavings at the level of single accesses.',['redis/pool.go:Get','redis/pool.go:create','redis/pool.go:Put','redis/pool.go:Close','redis/pool.go:Exec','redis/pool.go:ExecCommand'])
p('C186','Calling a method of the pool by value races, in exactly these ways',
  'For each capacity: two goroutines can be about to touch the count or the mutex of the pool at once, not both reading and not both atomically, if and only if one copies the pool to call create and the other locks; or one copies it to call Put or Close and the other locks, unlocks, or counts a new connection (for Put the last only if the capacity is not 1). The comparison of the count with the capacity and the counting never race.',
  'all schedules, all capacities','The race detector sees only schedules that ran; the absence of other races and the exception for capacity 1 need all schedules.',['redis/pool.go:Get','redis/pool.go:create','redis/pool.go:Put','redis/pool.go:Close','redis/pool.go:Exec','redis/pool.go:ExecCommand'])
p('C187','Messages sent are on the wire whole and in order up to the first failed write, and nothing after it',
  'For every behaviour of the connection (each Write fails or not, having taken any number of the bytes): Send reports success exactly for the messages before the first failed Write, these are on the wire whole and in order, followed by what the failed Write took of one message; every later Send reports that same error and puts nothing on the wire.',
  'all messages, all failures','Messages larger than the buffer are written in another way than small ones; failures after any number of bytes.',['redis/conn.go:Send','redis/conn.go:Write'])
p('C188','A command succeeds if the transport and the server are in order when it is executed',
  'After one failed Write, every command on that connection fails with the old error, though connection and server work again, and Pool gives the same connection to a lone goroutine for ever, whatever its capacity. With no failed Write, Exec is as if writers never fail.',
  'all commands, connections, errors, schedules of one goroutine','The error is remembered for ever; needs all continuations.',['redis/conn.go:Exec','redis/conn.go:Send','redis/pool.go:Get','redis/pool.go:Put','redis/pool.go:ExecCommand'])
p('C189','A snapshot that could not be saved is reported',
  'If ReadWithWriter returns no error, the file holds the whole snapshot. False: the error of the last write of the file (deferred Flush) is dropped, so for each non-empty snapshot some failure passes unnoticed, and of a snapshot of at most 4096 bytes all do. What the file holds and the error returned are characterised for all failures.',
  'all snapshots, chunkings of the stream, failures of the file','Every block of every snapshot can fail at every byte.',['redis/conn.go:ReadWithWriter'])
p('C190','The remote client is linearizable against a server that serves one request at a time',
  'For every number of goroutines, pool, schedule and order of service: each call is the call, one service of exactly its request, the return of what that reply decodes to (or a failed dial, no service, its error); the server serves nothing else, and its replies are those of a sequential run. A request sent is never lost. Needs that replies are read as sent (all of at most 4096 bytes in one piece, or without bulk strings in any pieces): a split value gives a value the server never had, and the next caller its rest.',
  'all goroutines, schedules, servers, pool sizes','Needs all interleavings of callers, pool and server; tests see one.',['redis/redis.go:process','redis/pool.go:ExecCommand','redis/pool.go:Get','redis/conn.go:ExecCommand','redis/conn.go:Recv'])
p('C191','No number is handed out twice by Incr on a remote server',
  'Against a server that counts, all calls of Incr (of any goroutines, over any pool, in any schedule, with failed dials, the replies arriving in any pieces) that return without error return different numbers, all above the one the server had.',
  'all goroutines, schedules, chunkings','Needs all interleavings and all chunkings.',['redis/redis.go:Incr','redis/pool.go:ExecCommand','redis/conn.go:ExecCommand','redis/conn.go:Recv'])
p('C192','The calls of one caller that panic are exactly these',
  'In every state that calls lead to, a call panics exactly if it is HKeys, HVals or HGetAll of a key that holds nothing (absent or expired), or SetRange of such a key at a position above 2^48; every other call returns.',
  'all calls, states, times','Tests try some keys; the claim is about every call in every reachable state.',['cachehash.go:HKeys','cachehash.go:HVals','cachehash.go:HGetAll','cachestring.go:SetRange'])
p('C193','A recovered panic has the effect of a Get',
  'A caller that recovers the panic of a call finds the cache exactly as after a Get of the same key at that time, with the lock free: every history with recovered panics is the history with these calls replaced by Get.',
  'all histories','Needs all states in which a call can panic, the lock held or not.',['cachestring.go:SetRange','cachehash.go:HKeys','cachehash.go:HVals','cachehash.go:HGetAll','cacheutil.go:get'])
p('C194','Goroutines that recover panics never leave the lock behind',
  'For all goroutines and schedules, panics being recovered by the callers: some goroutine in a call can always go on, the deferred function of a call that panics unlocks exactly the lock its goroutine holds, when all calls have ended the lock is free and no call waits, and the only calls that ever panic are HKeys, HVals, HGetAll and SetRange above 2^48.',
  'all goroutines, schedules','Needs all interleavings with a panic at any point.',['cachestring.go:SetRange','cachestring.go:Get','cachehash.go:HKeys','cachedb.go:Del'])
p('C195','Readers follow the stream while it is applied',
  'While the replication handler calls Set on the cache and any number of goroutines call Get, their operations interleaving in any way: every Get returns what the first n replicated set commands gave its key, for an n between those that had reached the cache when it was called and when it returned; so a Get called after another has returned never shows an older state, for whatever keys.',
  'all snapshots, streams, goroutines, schedules','Needs all interleavings of the single operations of Set and Get.',['xxcache.go:handleReplication','cache/message.go:HandleMessage','command.go:Get','cachestring.go:Set','cachestring.go:Get'])
p('C196','Readers do not disturb the replication',
  'With any number of goroutines calling Get at any moments, the replication takes and handles the same messages in the same order, reports the same errors and ends the process in the same cases as without readers; when nobody is inside a call the cache answers with all set commands taken; and everybody inside a call on the cache can return.',
  'all snapshots, streams, goroutines, schedules','Needs all interleavings of readers and the handler.',['xxcache.go:handleReplication','cache/message.go:HandleMessage','command.go:Get'])

p('C197','New reports every failure of setting up',
  'New returns nil only if dialling, both writes to the master, the reply to the ping, creating, writing and opening the snapshot file and loading it went well; then the master was sent exactly PING and SYNC. Otherwise it returns the error of the first thing that went wrong.',
  'all options, failures of the network and of the file system, replies, schedules','Needs every combination of failures, each at every point of every write.',['xxcache.go:New','redis/replication.go:SyncWithRedis','redis/replication.go:ping','redis/replication.go:sync','redis/replication.go:Load'])
p('C198','A disk that fails while the snapshot is saved',
  'If New returns nil then the snapshot file holds the snapshot. False: bytes of the checksum may be missing. Whatever the disk does, nothing else can be missing, everything in the snapshot was loaded, and the live stream begins where the snapshot ends.',
  'all snapshots, chunkings, failures of the disk at any byte, schedules','Needs a disk that fails at every possible byte, for every snapshot.',['redis/conn.go:ReadWithWriter','redis/replication.go:sync','redis/replication.go:Load','xxcache.go:New'])
p('C199','New that fails leaves nothing behind',
  'When New returns an error, what it opened is closed and no goroutine it started runs. False: New closes nothing. What is open and what runs in each case is characterised exactly.',
  'all options, failures, schedules','Needs every combination of failures.',['xxcache.go:New','redis/replication.go:SyncWithRedis','redis/replication.go:sync','redis/replication.go:Load'])

p('C200','A file that is cut off and loads without error loads what the whole does',
  'For every file F and every continuation: if Load returns nil for F, then for the longer file it returns nil and sends the same messages. False for one message: the expiry of a key with a module value within whose name the file ends. All other messages, and the state, are proved the same.',
  'all byte sequences, all cuts','Needs every file cut off at every byte; C84 and C127 cut well-formed snapshots only.',['redis/replication.go:Load','redis/rdb/rdb.go:LoadString','redis/rdb/rdb.go:LoadLen','redis/rdb/rdb.go:LoadDouble'])

p('C201','Concurrent HSetNX has one winner',
  'When any number of goroutines call HSetNX with one absent field of one key, exactly one of them is told 1. True for a key that holds a hash: any one may win, and exactly one does. False for a key that is not stored: any of them and any number of them may be told 1, only not none.',
  'all caches, numbers of goroutines, values, schedules','Needs all interleavings of any number of goroutines.',['cachehash.go:HSetNX','cachehash.go:getHashEntry'])

p('C202','Concurrent HDel reports one deletion',
  'When any number of goroutines HDel one field of one hash, exactly one of them is told 1 and HLen is one less. False: any of them, but at least one, may be told 1, and HLen is anything from the old count less one down to the old count less the number of those told 1 (below zero too). The field is gone in every case.',
  'all caches, hashes, numbers of goroutines, replies, counts, schedules','Needs all interleavings of any number of goroutines.',['cachehash.go:HDel','cachehash.go:HLen'])

p('C203','HLen is right when goroutines add and delete different fields',
  'When goroutines each add a new field to a hash or each delete a field that is there, all different, HLen is afterwards the old count plus the number added less the number deleted. False: any count from the old one less all deletions up to the old one plus all additions is possible, and nothing else, except that the old count itself needs both kinds.',
  'all caches, hashes, numbers of goroutines, fields, counts, schedules','Needs all interleavings of any number of goroutines.',['cachehash.go:HSet','cachehash.go:HDel','cachehash.go:HLen'])

def main():
    out = os.path.join(os.path.dirname(os.path.abspath(__file__)), '..', 'properties.jsonl')
    with open(out,'w') as f:
        for x in P: f.write(json.dumps(x)+'\n')
if __name__=='__main__': main()
