{
 "C01": "False of the code as stated (numeric text is normalised, an old deadline survives); proved: Get shows the text exactly if it is plain and the key's old deadline is not past.",
 "C02": "Exact stored text for every value.",
 "C03": "For every history on other keys.",
 "C04": "All string readers, Type and MGet, for every ready state.",
 "C05": "Includes any interleaved calls on other keys and reads of the key.",
 "C06": "False: Set keeps the old deadline. Proved: visible exactly up to the old deadline.",
 "C07": "False: every Set after an unnoticed expiry is lost. Proved when the expiry was noticed first.",
 "C08": "False exactly for keys stored and past their deadline: SetNX ignores expiry. Proved otherwise.",
 "C09": "GetSet is Get followed by Set.",
 "C10": "False when the concatenation is a number literal in another form; proved exactly otherwise.",
 "C11": "False when the spliced text is a number literal, and on a key that cannot be read above offset 2^48, where the process ends; otherwise splice and length proved for all, Get for plain text.",
 "C12": "Error and no observable change.",
 "C13": "All bounds.",
 "C14": "Exact relation, all states.",
 "C15": "All int64 counters.",
 "C16": "False: counters wrap silently. Proved: the exact wrapped result; it is the true sum exactly if that fits.",
 "C17": "All histories of counting calls, also interleaved with calls on other keys.",
 "C18": "Text, float and hash values.",
 "C19": "False for counters created by counting on an absent key (stored as int64). Proved for the other kinds.",
 "C20": "False, always: counting ignores expiry. Proved when the expiry was noticed first. Exactly: the sum returned is shown by a later Get iff the old deadline is not past then.",
 "C21": "All iteration orders; also equal to the sequence of Sets.",
 "C22": "False for every mixture of stored and absent keys (a subset is stored). Proved when none or all of the keys are stored, and that it holds for these only (C22_exact_partial).",
 "C23": "All iteration orders.",
 "C24": "Also leaves the cache as the Gets would.",
 "C25": "All states.",
 "C26": "False: expired keys are counted. Proved: the count is right exactly if no listed key is stored past its deadline.",
 "C27": "False for every hash (reported as string). Proved: none exactly for unreadable keys. Exactly: right iff the key is not a readable hash.",
 "C28": "Indistinguishable from a fresh cache.",
 "C29": "False: the sweep removes every key. Proved: exactly that.",
 "C30": "False exactly for durations that overflow int64 nanoseconds; proved for all others, with the deadline set otherwise.",
 "C31": "False for GetSet on a hash. Proved for every other call, and that GetSet on a hash always replaces it.",
 "C32": "Invariant over all reachable states.",
 "C33": "False for reads of expired keys (they purge). Proved: a read leaves no trace exactly if it names none, and reads stay repeatable.",
 "C34": "Exact text, other fields unchanged, count of new fields; also the expired case.",
 "C35": "Refuted: HExists lowers the length. Proved for every history without HExists, modulo int wrap; for every history, HLen is the number of fields less the HExists calls that found their field since the hash was made.",
 "C36": "Refuted: HExists lowers what HLen reports exactly if it finds the field. Proved: the reply is right and nothing but HLen of that key can change.",
 "C37": "Full, with the number of distinct present fields.",
 "C38": "Refuted for every hash: the key stays with an empty hash. Proved what remains. Exactly: Exists says gone after HDel iff the key was not stored before.",
 "C39": "Refuted: the stored value is the increment. Proved: the reply is the sum; the field shows it exactly if it was absent or zero.",
 "C40": "Full.",
 "C41": "Full: count, contents, order independence, and HMGet position by position.",
 "C42": "Refuted for absent keys (panic). Proved for every stored hash, and the outcome in every state, panics included.",
 "C43": "Refuted: numeric fields are left out. Proved: exactly the fields kept as text are returned, so all of them exactly if no field is a number; the outcome in every state, panics included.",
 "C44": "Refuted: always a nil map. Proved what is returned for every hash, and the outcome in every state, panics included.",
 "C45": "All fourteen hash calls.",
 "C46": "Full, every ready state.",
 "C47": "Linearizability with a clock that may advance at any moment, for any number of goroutines.",
 "C48": "Full, also with writers of other keys running.",
 "C49": "Refuted: two overlapping Gets of an expired key. Proved when each key has one reader: linearizable, and a Get issued past the deadline finds nothing.",
 "C50": "Refuted: two HSets that both create the key. Proved when the hash already exists. Exactly which fields n goroutines can leave when they create a hash together: any non-empty set of them (C50_exact_partial).",
 "C51": "Refuted: Type paused between expiry check and delete. Proved when readers hold the read lock and each key has one reader.",
 "C52": "Refuted: MSet takes no lock. Proved: all pairs visible once it returned, and each key shows the old or the new value meanwhile.",
 "C53": "All calls, all schedules, also with a mutex that lets no reader pass a waiting writer.",
 "C104": "All calls but HKeys, HVals, HGetAll and SetRange above 2^48, which do crash (C42, C11 and the companion theorem).",
 "C105": "Real-time respecting linearizability; readers take effect when they load the value.",
 "C54": "Full.",
 "C55": "Full: the bytes are an encoding of the arguments and of nothing else, also as a prefix of a longer stream.",
 "C56": "Full, with every message that has an encoding encoded by Serialize.",
 "C57": "Full, for replies of at most 2^48 bytes (the largest slice Go can allocate).",
 "C58": "Refuted: a bulk payload may come back cut and zero padded, at every position. Proved for replies without bulks of two or more bytes under every chunking, for every reply when chunks are whole replies of at most 4096 bytes, and what a bulk becomes under any chunking.",
 "C59": "Refuted: a bulk length of -2 panics, and so does every such header that is reached, however the bytes arrive (C59_bad_header_panics_refuted). Proved: a panic needs a bulk header with a length below -1 or above 2^48.",
 "C60": "Refuted: a cut number or line is taken as complete (every line). Proved for bulk strings and nested non-empty arrays of them arriving in one chunk; exact for integers.",
 "C61": "Full; a receive that fails without consuming anything reports end of stream.",
 "C62": "Full, and a truncated transfer is reported as an error.",
 "C63": "Full.",
 "C64": "Full, for every reply, with receive errors passed on.",
 "C65": "Refuted: the text is always empty. Proved: the error is nil exactly on an OK reply.",
 "C66": "Refuted: every integer reply becomes an error. Proved: all of them give the same result.",
 "C67": "Refuted for the three methods named. Proved for the other sixteen.",
 "C68": "Refuted: the test for the parse error is inverted. Proved: zero is returned for every float.",
 "C69": "Refuted: other replies give 0 without an error. Proved the result for every reply, and for exactly which replies the property holds (C69_exact_partial).",
 "C70": "Full.",
 "C71": "Refuted: a split payload leaks into the next reply. Proved for short replies under every chunking and for all replies in whole chunks.",
 "C72": "Full: every schedule, any number of goroutines, also with cancelled contexts, failed dials and Close.",
 "C73": "Full.",
 "C74": "Refuted: the mutex stays locked; every Get that reaches it blocks in every continuation, and no connection is opened again. Proved: idle connections are still served.",
 "C75": "Refuted: the channel is never closed, so Close returns only if closing a connection fails. Proved: undisturbed it takes and closes every idle connection.",
 "C76": "Full.",
 "C106": "Refuted: a connection just opened can be taken by another caller, and the one who opened it then waits although the pool could grow. Proved for an undisturbed caller.",
 "C92": "Refuted: a text that does not shrink is returned as it is and DeCompress then misreads it; the empty text panics. Proved for every table content: the result decompresses to the text whenever it differs from it.",
 "C93": "Full, for every input of at least two bytes; on a single byte the compressor reads one byte too far.",
 "C94": "Full, also that the result does not depend on what the output buffer held.",
 "C95": "Full, and only token streams are accepted.",
 "C96": "Refuted: corrupt input is returned as the text, and short texts are padded with zero bytes. Proved: any other result is the text denoted by the input.",
 "C77": "Refuted: every length from 2^14 on is read as 0. Proved below that, with the exact result for all lengths under every chunking.",
 "C78": "Refuted: every negative 16- or 32-bit integer is read as unsigned. Proved for 8-bit integers and for all non-negative ones.",
 "C79": "Refuted: a string of which the buffer holds a part only is padded with zero bytes. Proved for strings below 2^14 bytes that do not cross a 4096-byte boundary of the file, with the exact result otherwise.",
 "C80": "Refuted: every text from 2^14 bytes on panics. Proved below that under every chunking.",
 "C81": "Refuted: every double but +0 is lost. Proved: the result is always +0, eight bytes are consumed.",
 "C82": "Refuted: the three markers are read as 1, 1 and -1. Proved for every finite text.",
 "C83": "Refuted: a value across a 4096-byte boundary is damaged. Proved for every snapshot without such a string, in particular every one of up to 4096 bytes.",
 "C84": "Refuted: a stream key ends the load with success and later keys are lost. Proved for all other types within the supported sizes, and that a truncated snapshot is never a success.",
 "C85": "Refuted: plain hashes are always replayed as sorted sets. Proved for the two packed forms.",
 "C86": "Refuted: from 4294968 seconds on the product wraps. Proved below that in any snapshot, with the exact result for all.",
 "C87": "Refuted: plain lists are reversed. Proved for quick lists and ziplists.",
 "C88": "Refuted: every negative 16- or 32-bit element is read as unsigned. Proved for 64-bit sets and for sets without negative elements, with the exact result for all.",
 "C89": "Refuted: larger integers and strings of 64 bytes are misread. Proved: exactly which ziplists decode rightly, and the result for 8- to 32-bit integers and strings below 256 bytes.",
 "C90": "Refuted: the second entry is misread. Proved for at most one entry.",
 "C91": "Refuted: Load is wrong for every pair, keys are lost, invented, or make Set panic, which can depend on spare capacity. Proved: the layout after any Sets, the count up to 254, Lookup of the first key.",
 "C107": "Full: every file, in every chunking.",
 "C108": "Refuted: an id across a 4096-byte boundary is damaged and the load succeeds. Proved for every snapshot without such a string.",
 "C109": "Refuted: the deadline is replayed as a duration, so that every key expires too late. Proved the instant it expires.",
 "C110": "Refuted: member and score are swapped, so that no set with a member that is not a number is restored. Proved the exact command.",
 "C97": "Refuted: the cache New makes has no dictionaries, and the first set ends the process. Proved for every schedule that what is applied is the stream in order, each once, and that the handler can always finish the queue if it reads Err between errors.",
 "C98": "Refuted: every hmset is accepted and dropped. Proved for all other commands.",
 "C99": "Refuted: set with fewer than two arguments and rpush with any panic. Proved that these are exactly the crashing messages.",
 "C100": "Refuted: a second error while Err is full blocks its only reader forever (in every continuation). Proved that one error at a time is harmless.",
 "C101": "Refuted: live messages always count as database 0. Proved for the snapshot.",
 "C102": "Refuted for every key at every time: the cache New makes has no dictionaries. Proved for a cache from cache.New.",
 "C103": "Refuted: any message whose text begins with ping is dropped. Proved that these are exactly the dropped ones.",
 "C111": "Full: every snapshot, stream and chunking.",
 "C112": "Refuted: the text of an error reply to SYNC is saved as the snapshot. Proved for a wrong reply to PING and a truncated snapshot, and that a printable text never loads.",
 "C113": "Refuted for the cache New makes (see C97). Proved for every schedule with any cache in order, for snapshots of string keys within the sizes of C83.",
 "C114": "Refuted: the closed channel yields nil messages without end. Proved while the stream is open.",
 "C115": "Full: the bound for every schedule, and that a sender waits exactly while the queue is full.",
 "C116": "Full: every schedule; the logged and the pending errors together are those that occurred.",
 "C117": "Full: every snapshot, stream and schedule.",
 "C118": "Full: every reply.",
 "C119": "Refuted: the field holds the increment, and after a fraction every further call fails. Proved: the reply is the sum, what the field then shows, other fields kept, failures change nothing.",
 "C120": "Refuted for negative zero. Proved for every other value in every reachable state (C120_exact_partial joins both).",
 "C121": "Full: every reachable state and every float.",
 "C122": "Full: every schedule; own replies under C71's condition on how replies arrive.",
 "C123": "Full: every schedule, option and stream.",
 "C124": "Refuted: the pool hands out another connection. Proved with PoolSize 1.",
 "C125": "Refuted, universally for PoolSize 1: a closed connection goes back to the pool. Proved: every later command on it reports EOF.",
 "C126": "Refuted, for every record with data: Load fails there. Proved: a record without data is skipped.",
 "C127": "Refuted: the last value may be padded with zero bytes or empty. Proved: all but the last command and its expiry are the snapshot's. For every byte sequence, well-formed or not: all but the last two messages are those of the longer file (C127_any_partial).",
 "C128": "Refuted: the mirror learns of it later; with New's cache every Get crashes. Proved: Get shows the last value the mirror was told.",
 "C129": "Full: every step of both.",
 "C130": "Refuted, always: nil pointer crash. Proved: no crash if New succeeded.",
 "C131": "Refuted: Stop does nothing, anywhere in any execution.",
 "C132": "Full: every schedule; a pending request is only known to be some request.",
 "C133": "Full.",
 "C134": "Full: all growth policies.",
 "C135": "Refuted: a common backing array is overwritten. Proved without AppendTail, or without spare capacity.",
 "C136": "Refuted, always: every list call panics.",
 "C137": "Refuted, always: every ack repeats the snapshot's offset. Proved: nothing but whole acks is sent, and only after New succeeded.",
 "C138": "Full, without Close.",
 "C139": "Full, without Close.",
 "C140": "Refuted: closed connections still count, a used-up pool serves nobody. Proved below capacity.",
 "C141": "Full.",
 "C142": "Refuted: a bad bulk length ends the process for everybody. Proved: nothing else a server sends does.",
 "C143": "Full: with string writers, Del, Flush on other keys, and readers if no deadlines are set.",
 "C144": "Full: company as for C143.",
 "C145": "Full: company as for C143.",
 "C146": "Full: company as for C143; values appear as C06 says.",
 "C147": "Full for texts that the cache does not reformat (C06); company as for C143.",
 "C148": "Full: company as for C143.",
 "C149": "Full; for HKeys, HVals and HGetAll see C42, for SetRange above 2^48 see C11.",
 "C150": "Full: company as for C143.",
 "C151": "Refuted for every key and value: the methods are stubs.",
 "C152": "Refuted (HVals mixes two moments). Proved field by field for HKeys, HVals, HMGet on a hash that stays.",
 "C153": "Full.",
 "C154": "Full.",
 "C155": "Refuted. Proved: HLen never exceeds the number of fields while none is removed. Exactly which counts n goroutines can leave when each adds one field: from one more than before to n more (C155_exact_partial).",
 "C156": "Simulation: the shared run is followed by one run per group.",
 "C157": "From C156.",
 "C158": "Refuted (3 saved bytes lost). Proved with four bytes saved; larger buffers receive the same bytes.",
 "C159": "Size in the format proved; refuted for Set on every zipmap, which adds one byte less.",
 "C160": "Full.",
 "C161": "Full; for Set see C06.",
 "C162": "Full, in every state.",
 "C163": "Refuted: the text may be a number in between. Proved when the text in between is kept as it is.",
 "C164": "Full.",
 "C165": "Full.",
 "C166": "Refuted for HSetNX of number literals. Proved for SetNX, MSetNX and for HSetNX of other texts; for exactly which texts HGet shows no difference is C166_hget_exact_partial.",
 "C167": "Full.",
 "C168": "Refuted by the defects above. Proved for every history whose calls avoid them, condition by condition.",
 "C169": "Full.",
 "C170": "Full; the bound is needed.",
 "C171": "Refuted: a value split over two chunks is shown damaged. Proved for string snapshots within the sizes of C83 and streams in chunks of whole messages.",
 "C172": "Full.",
 "C173": "Refuted: keys are looked at one after the other. Proved key by key, in order, also against the reference store.",
 "C174": "Refuted for GetSet, Append, SetRange, the counters and Del: they write back over an MSet that has returned. Proved among all calls that do not look and then write.",
 "C175": "Full, in both directions.",
 "C176": "Full statement is false: HDel, HIncrBy, HIncrByFloat, HMSet, HMGet, HVals, HKeys, HLen and new hashes (refuted). Proved for the other calls on one field of an existing hash, with progress.",
 "C177": "Range by its documentation only: calls alone and histories, up to the order of lists.",
 "C178": "Range by its documentation only, for every schedule; every execution of CacheConc is one of these.",
 "C179": "Relates two executions step by step; replies equal, lists of HKeys and HVals up to order.",
 "C180": "Relates two executions step by step; exact, cron included.",
 "C181": "Relates two executions step by step through a fixed one-to-one link of hash addresses; with the fixed order of CacheConc.v without the sweep, with any order of Range for all calls.",
 "C182": "Both directions, for caches made from New() with ints and floats in the range of their Go types.",
 "C183": "Every operation of every method labelled with the plain memory it touches (dictionary pointers, length of a hash); the labelled goroutines have the same schedules, events and caches as those of CacheConc.v.",
 "C184": "So data races exist in the code as it is; the schedules are built for all keys, fields and values.",
 "C185": "Simulations both ways between PoolFine.v and PoolModel.v, so the pool theorems hold at the finer grain.",
 "C186": "So data races exist in the code as it is (value receivers copy size and the mutex); the copied values are not used.",
 "C187": "bufio.Writer modelled with its sticky error; transports fail by an arbitrary plan.",
 "C188": "Refuted for every dead connection and all commands after it; the case without failures is full.",
 "C189": "C189_exact_partial gives the contents and the error for all failures; refuted for every non-empty snapshot (C189_silent_refuted). Load notices a cut file (C84).",
 "C190": "Missing: replies holding bulk strings that arrive in pieces; refuted for those (C190_split_reply_refuted).",
 "C191": "Unconditional as to the pieces of the replies, since integers are read byte by byte.",
 "C192": "Exact, for every call and state.",
 "C193": "The worlds are equal, not only indistinguishable.",
 "C194": "Also: the only calls that ever panic among goroutines are those of C192. A panic of the sweep could be recovered by nobody; there is none.",
 "C195": "For a cache whose maps exist: New's own has none (C102). MirrorConc.v: each operation on the cache is a step of its own, with readers.",
 "C196": "As C195. The execution without readers is one of ReplModel.v, so that its theorems apply.",
 "C197": "SetupModel.v: everything New asks of the network and the file system may fail; with no failures it is the model of C111-C117.",
 "C198": "C198_any_partial is for all snapshots, up to the one message of C200; C198_loaded_partial is exact for those Load reads correctly (C77, C83).",
 "C199": "The finalizers of the Go runtime, which may close files nothing refers to, are not modelled.",
 "C200": "Nothing is missing for the other messages: the exception is the last message, an expiry, and a real one (C200_refuted).",
 "C201": "Refuted for a new hash (who is told 1 is characterised exactly, C201_new_hash_refuted). Proved, also exactly, for a hash that is there.",
 "C202": "Refuted; the possible replies and counts are characterised exactly (C202_exact_partial), and the field is always gone (C202_gone_partial).",
 "C203": "Refuted; the possible counts are characterised exactly (C203_exact_partial)."
}
