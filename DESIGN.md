# Formal model of liujiangwei/xxcache in Coq 8.16

Everything is in `rocq/theories`. `*Model.v` files model the code, `*Spec.v` files hold the independent
specifications (reference encoders, grammars, abstract cache answers), `*Lib.v` and the files marked
"proofs" below hold auxiliary lemmas, and `Props_*.v` hold the theorems named in `MANIFEST.json`, each
with an `Example` that meets its hypotheses.

## How the code is represented

All models are executable Gallina. Bytes are `Init.Byte.byte`, Go strings are `list byte`, Go integers are
`Z` with an explicit wrap wherever the Go code can wrap, `float64` is the axiom-free
`SpecFloat.spec_float` (53/1024). Panics, `log.Fatal`, errors and nil are explicit result values. Loops of
unknown length run on fuel, and running out of fuel is a separate result that is proved impossible.

| area | code | model | specification | proofs | theorems |
|---|---|---|---|---|---|
| strconv | Atoi, Itoa, ParseFloat, FormatFloat, ParseInt (Go library) | `Base.v`, `GoFloat.v` | the decimal value of a text | `FloatLib.v` | `Props_Resp.v`, `Props_Bad.v`, `Props_Iff.v` (C54), `Props_Float.v` |
| cache | `cache/cache.go`, `cachedb.go`, `cachestring.go`, `cachehash.go`, `cacheutil.go`, `cachecron.go` | `CacheModel.v`: each method is a resumption (`prog`), a tree of atomic steps (one per lock operation, sync.Map operation, clock read, field access) on a shared world with heap-allocated hash entries. Sequential meaning: run to the end. Concurrent meaning (`CacheConc.v`): interleave. One text serves both | `CacheSpec.v`, `StoreSpec.v` (reference store) | `CacheAbs.v`, `CacheRefine.v`, `CacheRefineH.v`, `CacheMain.v`, `CacheLib.v`; `ConcLin.v`, `ConcSafe.v`, `ConcRead.v`, `ConcDl.v`, `ConcKey.v`, `ConcHash.v`, `ConcLen.v`, `ConcOwn.v` | `Props_String.v`, `Props_String2.v`, `Props_Counter.v`, `Props_Multi.v`, `Props_Db.v`, `Props_Hash.v`, `Props_Hash2.v`, `Props_Float.v`, `Props_Exact.v`, `Props_Exact2.v`, `Props_Copy.v`, `Props_Iff2.v`, `Props_Exact3.v`, `Props_Laws.v`, `Props_Store.v`, `Props_Store2.v`, `Props_Store3.v`, `Props_Conc.v`, `Props_Conc2.v`, `Props_Conc3.v`, `Props_Conc4.v`, `Props_Conc5.v`, `Props_Lost.v`, `Props_Born.v`, `Props_Nx.v`, `Props_Del.v`, `Props_Mixed.v`, `Props_Conc6.v`, `Props_Conc7.v`, `Props_Conc8.v`, `Props_Conc9.v`, `CacheFine.v`, `Props_Conc10.v`, `Props_Conc11.v`, `CacheRange.v`, `Props_Conc12.v`, `CacheSim.v`, `CacheRename.v`, `Props_Conc13.v`, `CacheSame.v`, `Props_Conc14.v`, `CacheRace.v`, `Props_Race.v`, `RecoverModel.v` (panics recovered by the caller), `Props_Recover.v`, `Props_Recover2.v` |
| lists | `cache/cachelist.go` | `ListModel.v`: slices with shared backing arrays and any growth policy | in `Props_List.v` | | `Props_List.v` |
| bufio, RESP | Go `bufio.Reader`; `redis/protocol.go`, `redis/conn.go` | `RespModel.v`: buffered bytes and the list of chunks the transport will deliver; `WriterModel.v`: `bufio.Writer` over a transport that fails | `RespSpec.v` (grammar) | `RespLib.v` | `Props_Resp.v`, `Props_Resp2.v`, `Props_Writer.v` |
| commands | `redis/command.go`, `redis/redis.go` | `ClientModel.v` | in `Props_Client.v` | | `Props_Client.v` |
| pool | `redis/pool.go` | `PoolModel.v`: transition system over goroutine program counters; `PoolFine.v`: the same, access by access | in `Props_Pool.v` | | `Props_Pool.v`, `Props_Pool2.v`, `Props_PoolFine.v` |
| commands through the pool | `redis/redis.go:32-68`, `redis/pool.go:62-74,99-130`, `redis/conn.go:57-75` | `RemoteModel.v`; `LiveModel.v`: the same with the server | in `Props_Remote.v`, `Props_Live.v` | | `Props_Remote.v`, `Props_Remote2.v`, `Props_Live.v` |
| RDB | `redis/rdb/rdb.go`, `redis/replication.go:171-` (Load) | `RdbModel.v` | `RdbSpec.v` (reference encoder) | `RdbLib.v` | `Props_Rdb.v`, `Props_Cut.v` |
| packed encodings | `redis/intset`, `redis/ziplist`, `redis/zipmap` | `PackedModel.v` | `PackedSpec.v` (reference encoders) | | `Props_Packed.v`, `Props_Packed2.v`, `Props_Packed3.v` |
| LZF | `redis/lzf/lzf_c.c`, `lzf_d.c`, `lzf.go` | `LzfModel.v`: index-level model with explicit out-of-bounds faults | `LzfSpec.v` (token semantics) | `LzfLib.v`, `LzfFit.v` | `Props_Lzf.v`, `Props_Lzf2.v` |
| replication | `redis/replication.go`, `cache/message.go`, `xxcache.go` | `ReplModel.v`: receiver, acker, handler and channels as a transition system; `AckModel.v`: the bytes of the acks | in `Props_Repl.v` | | `Props_Repl.v`, `Props_Ack.v` |
| client | `xxcache.go`, `command.go` | `FacadeModel.v`, `MirrorConc.v`, `SetupModel.v` | in `Props_Facade.v` | | `Props_Facade.v`, `Props_Mirror.v`, `Props_MirrorConc.v`, `Props_Setup.v` |

## Per-property plan

The convention for statuses: a sentence that is false of the code gets a `_refuted` theorem (a computed
witness, or a universal statement where the violation is universal) and the strongest true part as
`_partial`; the claim is then "partial". A claim is "proved" when the sentence itself, for everything it
quantifies over, is a theorem.

* C01–C32, C120, C121 (strings, counters, several keys, deadlines, sweep): evaluation of each call against the
  abstract view of a key (`CacheAbs.v`, proved to be a refinement for every call), then induction over call
  histories. C54, C82, C120, C121 need the round trip of float texts (`FloatLib.v`).
* C33 (purity of reads): bisimulation between the world before and after the read.
* C34–C46, C119 (hashes): the same refinement with heap-allocated entries.
* C47, C48, C53, C104, C105: interleaving semantics; invariant "the lock holder runs alone", serial order =
  order of lock acquisition (readers: order of their load).
* C49–C52: explicit schedules for the refutations; invariants per key for the true parts.
* C55–C57, C63: structural induction over messages. C58–C60: induction over chunkings. C61: measure on the
  bytes left. C62: induction over the payload.
* C64–C71, C118: case analysis over all replies; wire commands stated for all arguments.
* C72–C76, C106: inductive invariants of the pool; "blocked for ever" as an invariant of all continuations.
* C77–C87, C107–C110, C126, C127: decode-encode laws against the reference encoder, for every chunking.
* C88–C91: the same for the packed encodings. C151, C159: evaluation. C92–C96: loop invariants of the C code against the tokens.
  C158: two runs of the compressor with buffers of different sizes side by side.
* C97–C103, C111–C117: invariants over every schedule of the replication system, for every stream.
* C122–C125, C132, C142: product of pool, connections and commands; each goroutine's history projected.
* C128–C131, C133: the client on top of the replication system and the pool.
* C134–C136: slices with aliasing.
* C137 (acks): invariant over every schedule of the replication system with an ack log.
* C138–C141 (pool order, conservation, Close): how each step changes the idle queue and the set of connections.
* C143–C148, C150 (tickets, winners, hand-overs, readers): the serial order of C47/C105, cut at a point of time and projected to one key.
* C152–C155 (one hash, many goroutines): invariants per field; for the count each goroutine carries a phase (field added and not
  counted, count read).
* C156, C157 (different keys): a simulation; the shared world is cut into two worlds, one per group, that agree with it on the group's
  keys up to renaming of hash addresses.
* C160–C167 (laws between calls): key-by-key view of the cache; C160 by induction on the interleaving.
* C168–C170 (reference store): `StoreSpec.v` is the store; a relation between its items and the cache's views is kept by every call
  that meets the condition `fits`, which excludes the defects proved elsewhere. C169 adds the serial order of C105, C170 a bound on the
  counters.
* C172, C173 (several keys): simulation of a call by its calls on one key, up to equality of programs step by step (`peq`); C173 adds
  C105 and C170. C174: a simulation of its own for calls with one step that decides.
* C175 (pointers): `CacheFine.v` splits every operation into reading the pointers and using them; the coarse execution is kept together with
  all ways the goroutines holding dictionaries out of use may still act before the Flush (`cover`).
* C176 (fields): the moment of HSet is LoadOrStore if the field is new and Store if not; fields are never removed (`grown`), and caches are
  compared up to the count of HLen (`same_fields`).
* C177, C178 (Range): a call is given any list of keys to look at and goes on from the start of Range only if the list has no key twice
  and all keys stored then; alone this gives the model's reply up to order; with goroutines, the invariants of C152-C157 per field (`okeep`).
* C179, C180 (names, time): two programs that do the same step by step on related caches (`sim`); each atomic operation commutes with
  renaming and with moving the clock, so each call, history and execution does.
* C181, C182 (contents): the relation of C179 with a one-to-one link of the addresses of hashes, fixed for the whole execution (old hashes by
  key, new ones by order of creation); for the converse a list of probes: Set and Get for the deadline, Get, IncrBy and IncrByFloat for a
  value, HLen, HGet and HIncrBy for a hash, HDel of the other fields and HVals for a field kept as a text.
* C183, C184 (data races): the methods once more with a label on each operation; invariant: who holds the lock, which key owns each hash
  address (never two keys), and that a goroutine only has addresses of its own key; the lock changes hands between conflicting uses.
  Conversely goroutines are driven to the access, a third one preparing the fields.
* C185, C186 (pool, access by access): simulation both ways with the coarser system; mutual exclusion and `nothing is got before a
  connection is counted' as invariants; one schedule per racing pair, for a symbolic capacity.
* C187–C189 (writers that fail): the transport and the file follow an arbitrary plan of failures; induction over the messages, or over the
  4096 byte blocks that bufio.Writer makes of a snapshot.
* C190, C191 (client and server together): one invariant per connection (a request not yet read, a reply not yet read, or nothing) and an
  automaton per goroutine; C191 counts results against replies.
* C192 to C194 (panics): exactness from the key-by-key functions of `CacheAbs.v`; runs that keep the world of the panic, with the deferred
  unlock performed on it; the lock accounting of C53 with the call of every goroutine, so that the deferred function is known.
* C195, C196 (replication with readers): an invariant of the steps of `MirrorConc.v` says that the cache side is an execution of `CacheConc.v` in
  which goroutine 0 only sets and the others only get, and the replication side one of `ReplModel.v`; C105 gives decision points, and the
  point of an event is the number of set commands decided before it.
* C197-C199 (New with failures): by cases on what fails first (`w_send_ok` of C187 gives what one Send writes); from then on the
  theorems on `ReplModel.v` apply. C198: what is in the file is a beginning of the snapshot (C189), and a snapshot cut before its end mark is never
  loaded without error (C84). C199: an invariant on the phases of New and of its goroutines.
* C200 (cut files): `along` relates the reader of a file to that of the same file with more behind it. Every parser that succeeds on the shorter one gives
  the same on the longer one, or has reached the end of the shorter one (`follows`); no parser needed for a further item succeeds at the end.
* C201, and the exact forms of C50 and C155 (n goroutines, one call each): each goroutine is at one of the operations of its call (`bst`, `nst`, `lst`), invariants over
  where they are; the executions that show a result to be possible are built by recursion over the goroutines.
* C202 (n goroutines HDel one field): the same with `dst`; the executions move lists of goroutines in step (`put`, `ph`).
* C203 (HSets and HDels of different fields): the same with `tst` and two counters of the calls that are over; the last to write the count, and those that follow it in turn, decide it.
* C171 (master to Get): composition of C58, C83 and C128.
* C149 (every call returns): well-founded order on the programs of the goroutines, with C53.

No property listed is considered inexpressible in these models.

## Trusted base

1. Coq's kernel (8.16.1), including its `vm_compute` conversion, and the `coqc` build.
2. What `Print Assumptions` lists for each theorem: for every theorem named in `MANIFEST.json` it prints
   "Closed under the global context". No axiom of the standard library or of any other library is used, and
   none is added. `python3 tools/assumptions.py` (after a build) repeats this check for all of them.
3. The reading of the Go and C source recorded in the comment of each definition, the Go library semantics in
   the next section, and the specification files.

std++ is used for `gmap` and lists; its theorems used here are axiom-free.

## Which code is modelled

Every function of `/repo` that is not a test, with its model:

| code | modelled as |
|---|---|
| `cache/cache.go` New; the fields of Cache | `CacheModel.v` (`new_world`); Cron: the effect of each tick (`cron_expire`), not the ticker loop |
| `cache/cachedb.go` Del, Flush, Exists, Type | `CacheModel.v` |
| `cache/cachestring.go` all functions (Set, tryInt64, SetNX, SetEX, PSetEX, fmtString, Get, GetSet, StrLen, Append, SetRange, GetRange, Incr, IncrBy, incrBy, IncrByFloat, Decr, DecrBy, MSet, MSetNX, MGet) | `CacheModel.v` |
| `cache/cachehash.go` all functions | `CacheModel.v` |
| `cache/cacheutil.go` expired, expires, get | `CacheModel.v` |
| `cache/cachecron.go` cronExpire | `CacheModel.v` |
| `cache/cachelist.go` AppendTail, AppendHead, and the LPush ... BRPopLPush stubs (all `panic`) | `ListModel.v` |
| `cache/message.go` HandleMessage | `ReplModel.v` |
| `redis/protocol.go` String, Serialize, Protocol of all messages | `RespModel.v` |
| `redis/conn.go` Recv, Send, readProtocol, discardEof, ReadWithWriter, readMessage | `RespModel.v` |
| `redis/conn.go` Send, Exec, ReadWithWriter when writes fail, readBulkString (not called) | `WriterModel.v` |
| `redis/conn.go` SendAndWaitReply, ExecCommand, Close | `ClientModel.v`, `RemoteModel.v` |
| `redis/command.go` all; `redis/redis.go` all commands | `ClientModel.v` |
| `redis/redis.go` NewClient, process; `redis/pool.go` ExecCommand | `RemoteModel.v` |
| `redis/pool.go` Init, Get, create, Put, Close, Exec (with an arbitrary handler) | `PoolModel.v`, `PoolFine.v` |
| `redis/rdb/rdb.go` all; `redis/replication.go` Load, SetReplicationId/Offset as used by Load | `RdbModel.v` |
| `redis/replication.go` SyncWithRedis, ping, sync, WaitForMessage, Ack, ack | `ReplModel.v`, `AckModel.v` |
| `redis/intset` Load; `redis/ziplist` all; `redis/zipmap` all | `PackedModel.v` |
| `redis/lzf/lzf.go` Compress, DeCompress; `lzf_c.c` lzf_compress; `lzf_d.c` lzf_decompress | `LzfModel.v` |
| `xxcache.go` New, handleReplication, prepareOption, Stop; `command.go` Client.Get, Client.Set | `ReplModel.v`, `FacadeModel.v` |

Not modelled:

* `conn.go` WithTimeout, WithReadTimeout, WithWriteTimeout (nothing in the repository calls them, the durations are
  stored and never read) and Connect/NewConn beyond "a new stream";
* `replication.go` pSync (empty), Stop (empty; the client's Stop is C131);
* `cache/cacheset.go`, `cache/cachezset.go` (type declarations without functions), the interfaces in `command.go`,
  `cache/main/main.go` (a demo), all `_test.go` files, logging.

## Simplifications

* Go memory model: plain accesses to shared fields are single atomic steps and execution is sequentially
  consistent; undefined behaviour of data races is not represented (C183 and C184 say exactly between which calls there are races: for
  executions without such pairs this is what the Go memory model promises). Reading `c.dataDict` and the operation on it are one step
  (justified by C175).
* `sync.RWMutex` has no writer preference (this only adds schedules; C53 is also proved with it). `sync.Map.Range` visits the
  keys of one moment and loads each value at its visit; a key deleted and stored again before its visit is always visited, and the
  order is that of the model's map (C177 and C178 are proved for every Range that the documentation allows; `CacheRange.v`).
* `bufio.Reader`: the transport never returns without data or an error; the only read error is end of
  stream (the code treats all errors alike); writers do not fail, except for the acks of a replica
  and in `WriterModel.v` (C187–C189: Send, Exec and ReadWithWriter with any failures).
* Memory exhaustion and stack overflow are not represented. `make` with a length above 2^48 panics.
* Deadlines and clocks are int64 nanoseconds; the clock may advance at any point but never goes back.
* `strings.ToLower` is ASCII lower-casing, and U+0130 becomes `i`.
* Pool: the capacity is small enough for `make(chan)`; `pool.size++` is merged with the return of the dial (both under the mutex; C185
  shows that this makes no difference). connCloseHandler is empty, as in
  the repository.
* Remote: opening a connection is one step; the pool is not closed; in `LiveModel.v` the server serves a request in one step and never
  closes a connection; `context.Background` never ends.
* RDB: opening the file is not modelled, a regular file is delivered in one chunk (the theorems allow any chunks);
  the iteration order of Go maps is a parameter; sending a message to the queue does not block inside the Load
  model (it does in `ReplModel.v`).
* LZF: the configuration macros have the values of `lzfP.h`; pointer comparisons are index comparisons; reading or
  writing outside a buffer is an explicit fault; lengths are below 2^32.
* Replication: in `ReplModel.v` dialling and opening the file succeed and writers do not fail; in `SetupModel.v` (C197-C199) all of that may fail; in `ReplModel.v` and `FacadeModel.v` HandleMessage and Get are one step each. In
  `MirrorConc.v` (C195, C196) they are not: every operation on the cache is a step, and readers and the handler interleave.
* Lists and zipmaps: the capacity that `append` chooses is a parameter.

## Checking the theorems against wrong programs

`seeded/LOG.jsonl` lists the edits tried on the models in scratch copies, the claims they break and the theorems
that failed. Where an edit survived, the theorem that was tightened or added is named.
