# Formal model of romange/helio in Rocq (Coq 8.16.1)

## Layout

* `properties.jsonl` - the properties (C01, C02, ...).
* `rocq/theories/<X>Model.v` - the model of one piece of code: total computable functions or
  small-step transition systems. Each definition cites the file and lines of `/repo` it models,
  and says where it simplifies.
* `rocq/theories/<X>Spec.v` - the vocabulary of the statements: a small specification that does
  not use the helpers of the model.
* `rocq/theories/<X>Proof.v` - lemmas and invariants.
* `rocq/theories/<X>Props.v` - the property theorems, each followed by `Print Assumptions`, and
  concrete examples (`..._met`) that meet the hypotheses.
* `MANIFEST.json` - property -> theorems.
* `seeded/*.mut` - wrong programs (edits of the models), `seeded/mutate.py` - the runner,
  `seeded/LOG.jsonl` - what each of them broke.

## Modelling conventions

* Machine integers are `N`/`Z` with explicit `mod 2^32` / `mod 2^64` where the code relies on or
  is exposed to wrap-around.
* Undefined behaviour (out-of-bounds access, shift by the word width, use of a dead object) is a
  distinct outcome (`Ub`, `None`), never assumed away.
* `DCHECK`s vanish in release builds: what they check is either proved or a precondition that is
  named; `CHECK`s are an abort outcome (`Stuck` when nothing may follow).
* External code (kernel, zstd, clocks, hash functions, user callbacks) is an oracle: a function,
  a label or a list argument the theorem quantifies over.
* Concurrent code: labelled transition systems (`Conc.v`). One transition is one atomic access
  (load, store, read-modify-write) or a critical section protected by a lock that is itself
  modelled elsewhere; the state has a program counter for every thread, so the number of threads
  is unbounded. A list of labels is an arbitrary interleaving. "No lost wake-up" is stated as: in
  no reachable state is a fiber suspended while its condition holds and nobody is about to wake
  it; together with progress from every state.
* When the code as written violates the property, the theorem is `..._refuted` (a concrete
  counterexample evaluated by the kernel) and is accompanied by a theorem for a guard, as weak as
  we could make it, under which the property does hold (`..._partial`).

## Trusted base

* Coq 8.16.1's kernel, including `vm_compute` (used for concrete runs and finite case splits).
* No axioms. `Print Assumptions` answers "Closed under the global context" for every theorem; the
  table at the end lists them. No axioms of the standard library are used either.
* Libraries: the standard library only (`NArith`, `ZArith`, `List`, `Bool`, `Lia`, `Permutation`,
  `Sorted`, ...). No plugins beyond those the standard library loads.
* That the models say what the C++ says. Each definition cites the lines it models. The models
  were compared with the code by reading, not by running it.
* The memory model is sequential consistency. The acquire / release / relaxed annotations of the
  code are *not* modelled; a bug that needs a weakly ordered execution is out of reach. Where a
  non-atomic access could race with another under SC, the model makes this `Ub` or a theorem
  (`spsc_no_race`, `mpmc_no_race`) excludes it.
* Oracles are assumed to keep the contract written beside them (for instance: the kernel
  completes each submission with the user_data it was given; `pread` returns at most the number of bytes asked for).
* Histogram: doubles are the rational numbers they denote (no infinities, no NaN), every operation is
  exact and then rounded by a function of which `HistSpec.rounding` states the few things that are assumed. Human readable
  sizes: the IEEE rounding is modelled exactly on rationals in `HumanModel.v`.
* zstd: the decoder is any machine that meets `ZstdSpec.contract`.

## Plan per property

| id | what is modelled | how it is proved |
|---|---|---|
| C01 | `IoBuf` as (memory, offset, size, capacity); every mutator | refinement to a byte list, induction over histories |
| C02 | `RingBuffer` with counters mod 2^32 | refinement to a bounded list |
| C03, C04, C05 | `SegmentPool` deque of (offset, len, free), `RequestBuffer` on top | invariant by induction; C05 refuted by a history |
| C06, C07, C08 | flit encode/parse with explicit shifts, partial reads | arithmetic over `N`; UB inputs characterised exactly |
| C09, C48 | URL escaping and query strings | induction on strings, byte case split by computation |
| C10 | `SlidingCounter` with an explicit clock | invariant relating slots to the history |
| C11 | SPSC queue, atomic step granularity | invariant, linearization |
| C12 | Vyukov MPMC queue | invariant on cell sequence numbers, ghost tickets, linearization |
| C13 | MPSC intrusive list with stub | invariant on the linked chain, linearization |
| C14 | `EventCount`: epoch, waiter count, lock, wait queue | invariant over the transition system; any condition on any shared state |
| C15 | `Mutex` with the wait queue's spin lock | invariant |
| C16 | `EmbeddedBlockingCounter` over C14 | invariant |
| C17 | `SharedMutex` state word over C14 | invariant; refuted part by a run |
| C18, C49, C50 | `CondVarAny`, `Barrier` over C15 (monitor framework `Mon*`) | invariant on rounds |
| C19 | `Done`, `Future` over C14 | refuted for two waiters, proved for one |
| C20 | `SimpleChannel` over C11/C12 and C14 | invariant; three refuted parts |
| C21, C22, C23, C41 | `io::Sink`, `io::Source`, iovec helpers with oracle sinks/sources | induction on the responses |
| C24 | `LineReader` | refuted for short reads; what the lines are for every read pattern |
| C25 | `ini::Parse` | equality with a declarative grammar |
| C26 | `ReadAll`, `ReadAllPosix`, `ReadFileToString` with a `pread` oracle | induction on the responses |
| C27 | `ReadProcFile` over `IoBuf` | refuted; guarded theorem |
| C28 | metric families: global and per-thread maps, vectors, any interleaving of the lock | refuted; guarded theorem |
| C29, C30 | `Histogram` over an ordered value type | induction on samples and merges |
| C31 | `PODArray` with byte capacities and blocks | refinement; five refuted parts |
| C32 | `PmrArena` block carving | invariant |
| C33 | `CuckooMap` (without `Compact`, see C54) with displacement and size oracles | invariant |
| C54 | `CuckooMap::Compact`: copying, the depth-first search for displacement paths with its bucket states and cleanup, the ten tries | invariant of the search (the entries displaced along the stack, every bucket has one parent), termination measure; refuted if it returns false |
| C34 | the scheduler of one thread: ready queues, sleep queue, remote queue, dispatcher | invariant over histories, logs of additions and runs |
| C35 | `tq_seq_` protocol: submitters, remote wake-ups, the proactor loop (uring and epoll) | invariant over the transition system |
| C36 | on-idle array | invariant; three refuted parts |
| C37 | `centries_` table of io_uring callbacks | invariant, ghost owners |
| C38 | direct-fd table | invariant |
| C39 | epoll callback table | invariant; refuted parts |
| C40 | `FiberInterface::Join` and termination flags | invariant |
| C42 | RESP parser with blocks, capacities and chunks | refuted; guarded theorem |
| C43 | `string_view_sso` | case split on length |
| C44, C53 | `ParseHumanReadableBytes`, `HumanReadableNumBytes`, the flag type, IEEE rounding | arithmetic; refuted parts |
| C45 | `ZStdSource` with a decoder oracle | refuted; guarded theorem |
| C46 | `FiberQueue` over C12 and C14 | invariant; refuted part |
| C47, C52 | gate word of migration/traversal; accept counter | invariant |
| C51 | periodic tasks of `UringProactor` with kernel timers | invariant |
| C55 | `AbstractStorageFile` with the writers of S3, Azure and GCS, against a small model of the service (parts, completion, resumable ranges) and a lossy network | invariant relating parts received, numbers used and the buffer to the data accepted; refuted for vectored writes and after failures |
| C56 | `S3WriteFile` (AWS library) against the same service | the same invariant |
| C57 | `RobustSender::Send`, `http::Client`, `ClientPool`: callers on one pool, connections with the answers still unread on them | invariant: idle connections have nothing left to read; refuted for unread bodies, retry counts, large errors |
| C58 | the loop of `Send` with answers, errors and tokens chosen by the schedule | invariant over the answers a call has met; induction over stale connections; refuted for three of them |
| C59 | the pool of C57 | ownership invariant: idle, held and deleted connections partition all |
| C60 | `S3ReadFile` with range requests that succeed, fail or are ignored | the state determines the rest of the object; induction over requests and buffers |
| C61 | one response body streamed through `Recv`, with failures after any byte | the same, with a sticky failed state |
| C62 | TlsSocket with a writer, a reader and the background write as threads; the engine as a specification of OpenSSL over tokens (application byte, protocol record, close_notify) whose decisions are inputs; the upstream socket as an oracle | invariant relating wire + output + taken bytes to the stream, over all schedules |
| C63 | the same machine | invariant: consumed input = returned bytes; close_notify stays at the front of the input |
| C64 | the same machine | counting invariants for the two flags; case analysis of each wait |
| C65 | TlsAsyncModel: the state machine of the two requests of the callback API over the same engine; labels are calls and completions of upstream operations; the input buffer has positions, so that a read into a stale place is seen | a counting invariant (each request is in exactly one place) for safety and progress; stream invariants as for C62/C63 under hypotheses on what the engine asks for; refutations by runs |
| C66 | EsockModel: one EpollSocket, its unions and flags, any number of fibers (idle, suspended, ready), timers; the kernel side of the connection (input queue, end, reset, pending error, send space, edge-triggered readiness) as labels | one invariant in three parts: which fiber each slot names, nobody waits while ready without a pending event, streams; progress lemmas from it; runs carry the contract of the API as a hypothesis on each step |
| C67 | the same | stream equations as invariants; a case analysis of each step that appends a return; refutations by runs |
| C68 | the same, with callbacks as events of the history; EsockSpec: which input or fault the hook (the error callback) has not been told of | counting for AsyncWriteSome; an invariant "not told implies an event is pending" for the hook and the error callback; refutations by runs |
| C69 | UpollModel: EpollAdd, RearmEpoll, EpollDel; the kernel's requests, its completion queue; UpollSpec: no call after EpollDel returned | invariants over all runs (requests, completions and the entry account for each other); refutations by runs |
| C70 | BufRingModel: the shared ring (entries, tail), BufRingGroup, BufRingGetBufPtr, BufRingTrackRecvCompletion, the loop of the recv hook, the kernel that fills buffers (written from the io_uring documentation and its observed variants); BufRingSpec: bytes received and given per socket | an invariant that unrolls the storage into a line: each completion stands for an interval, the proactor's position reaches the kernel's through them; refutations, the burst for every ring size |
| C71 | ErrCbModel: the reference-counted error-callback wrapper, its poll, the removal, slots reused by other requests, kernel queue in order; ErrCbSpec: once, never after the cancellation | invariants: one token per busy slot, references counted, what a removal in the queue may still meet |
| C72 | RwSpinModel: every atomic operation of RWSpinLock on its 32-bit word, for n threads; RwSpinSpec: rights and their compatibility | invariant: the word is 4 * readers + 2 * upgraded + writer; ghost data for the stability of what was seen |
| C73 | PoolModel: the calls, DispatchBrief with its EventCount and full queues, the batches of the main loops, the fibers of AwaitFiberOnAll; PoolSpec: events counted | invariants over all runs; progress; termination by a measure |
| C74 | InternModel: GetString's two lookups under the two locks, the set, the arena | invariants; the lock is abstract (C72 is about it) |
| C75 | FibFileModel: the buffer, its cached part, the prefetch in the thread pool, all branches of Read and Close; accesses that race with the pool or leave the buffer are Ub; FibFileSpec: slices of the file | invariant: the cached part and the prefetch continue each other and hold the file's bytes; refuted for seeks, failed prefetches and destruction without Close |
| C76 | DnsModel: the callback of the global resolver step by step; the map of sockets and the armed callbacks of the other variant; c-ares is an environment that closes open sockets only, and all of them in ares_destroy | counterexample runs for the first; invariant: armed callbacks = open sockets |
| C77 | The request targets of the listing calls, byte for byte; one page (what the callback gets, the new token); the paging loops. The server is any function from tokens to answers; JSON and XML parsing are not modelled | The target read as path?k=v&k=v with percent-encoding, shown to be readable in one way only; the loop against inductively defined listings, both directions, by induction over the pages |
| C78 | LibdivModel: the unsigned dividers (gen, do, the three algorithms), the portable high product and wide division, word by word with wrap-around; IsPrime, GetPrimeNotLessThan, FromHash | The error of the reciprocal bounded by number theory, for every divisor; Knuth's digit estimate for the wide division; bucket numbers linked to the model of C33; trial division by invariant |
| C79 | sockets on io_uring over a descriptor table: Create, Connect, Bind, Listen, Accept, Shutdown, Close, Detach, destructor, the five read and write calls, TrySend and TryRecv; submission and completion of requests are steps of their own | one invariant over all schedules of well-behaved users (descriptors, waiting requests, bytes, call numbers); the word fd_ by arithmetic on bits; counterexamples by computed runs |
| C80 | ReadFileImpl::Read with ReadAll, LinuxFile::Read, Write (over the positions of ApplyExactly, C21) and ReadFixed against a kernel that answers as it likes; the descriptor table and the ring's table of files with constructor, Close and the target of each request | loops by induction over the answers, with the part of the file delivered so far; the file after a write is given byte by byte; counterexamples computed or for all answers |
| C81 | AwsCredsProvider::Sign on requests as method, target and header list, with SHA-256 and HMAC as parameters; CanonicalUri, CanonicalQueryString, SetHeader, BucketObjectPath | the service's side written after the AWS document (decode what was sent, encode, sort, collapse), as relations proved to be functions; sorting by permutation and order; the Authorization header is then equal for every pair of hash functions |
| C82 | RefreshToken, RefreshTokenImpl, RefreshIfExpiring and Sign's copy of the credentials, as steps of any number of fibers, with the answers of the services and both clocks as inputs | inductive invariant over all schedules (who holds the flag, which credentials are in place, what each waiting fiber knows); the statements are about the history of calls, requests, answers and signatures |
| C83 | ParseIniSection, ParseHttpUrl, ServiceEndpoint, the region and the chain of credential sources in Init, with environment, files, servers and the JSON, XML and time parsers as functions | grammars of INI lines and URLs as relations (INI total on all texts); what each source offers as a relation, proved equivalent to the code that tries it; first in the documented order by induction on it |
| C84 | `FileLogSink`: a thread's critical section on one log file is a step; what fopen, fwrite, fflush, fclose, symlink and the clock answer is in the label; the stream's buffer is in the state | decomposition of each section into ten elementary moves, invariants over traces relating buffer and disk to the messages written; concrete runs for the refutations |
| C85 | `HttpListenerBase` and `HttpConnection`: dispatch, authorization, flags, file check (paths as component lists, `lexically_relative`), `ParseFromBuffer` and the request loop; base64, path resolution, opening of files, flag parsing and Boost.Beast's parser are arguments | case analysis of the dispatch against relations for paths, queries and credentials; induction over the stream of requests; concrete requests for the refutations |
| C86 | `Credentials` of Azure: the signed text, SAS and bearer tokens, connection strings, endpoints, the three sources, `RefreshToken`, and `BuildObjectUrl`; the environment is a function, the identity service an oracle from target to reply, HMAC and Base64 are arguments; the clock, logging and the lock are left out | the service's shared-key rule as a relation on requests (with uniqueness), sorting and decoding lemmas of C81/C83; relations for settings, endpoints and sources; concrete requests and environments for the refutations |
| C87 | `CreateServerSocket`, `AddListener`, `AddUDSListener` with the kernel's answers as an oracle; the end of `RunAcceptLoop`, `RunSingleConnection`, `Migrate` and the connection lists, for a pool of any size; each thread's task and ready queues are one first-in-first-out queue, what a thread does up to its next preemption point is one step; `Run` and `Wait` themselves, traversals and the client limit (C47, C52) are left out | the address rule as a relation on the list of addresses; an invariant of queues, lists and callbacks over all schedules in which nobody migrates after the loop has ended, progress from the invariant; concrete schedules with a migration for the refutations |
| C88 | `VarzListNode`'s constructor, destructor and `Iterate` over a heap of nodes in which touching a dead one is `Ub`; `Format` (base/varz_node.cc); `VarzMapAverage::IncBy` and `GetData` (util/varz.h, util/fibers/varz.cc), one label per piece between preemption points. Doubles are given by their text | the heap is a well-linked chain of the live nodes, newest first (the stale `prev_` of the head is allowed for), by induction on the history; a JSON reader written from the grammar reads `Format v` back, by induction on the value; per thread, the result is a prefix of the keys with the counters of the moment each was read, by induction on the schedule; refutations by computation |
| C89 | `SplitMix64` and `Xoroshiro128p` with `seed`, `operator()` and `jump` (base/random.h), bit for bit | SplitMix64: each step of the mixing function has an inverse, the increment is odd. Xoroshiro128p: one call is a linear map over two-element-field vectors; its characteristic polynomial is checked on a basis; powers are computed modulo it by the kernel, so a statement about 2^64 calls becomes one about polynomials of degree 127; a polynomial with an inverse kills no state but zero. The period: 2^128-1 calls are the identity, and for each prime factor p, (2^128-1)/p calls move every state but zero; the factors are shown prime (the largest by trial division with 128k+1, as doubling modulo a prime factor of 2^64+1 has cycles of 128); all states are reached by a counting argument |
| C90 | `MurmurHash3_x86_32` with every read checked against the data, `Fingerprint` with XXH64 as an oracle (base/hash.cc) | each step (multiplication by an odd number, rotation, xor with a shift) is one-to-one, so the state after a block determines the state before it and, given that, the block; induction on the blocks |

## What is not modelled

* Context switching itself (boost.context, stacks, `SwitchTo` hooks), stack overflow, the fiber
  tracing and the statistics; the cycle budgets of the scheduler (its choices are
  nondeterministic in C34).
* Weak memory orders (see above); `folly`-style cache line padding, prefetching.
* OpenSSL (its engine interface is a specification with arbitrary decisions), TLS handshake, Shutdown and Close, c-ares itself, HTTP (boost.beast), cloud clients (AWS, GCP, Azure) apart from what a property
  names (credentials of GCP and Azure are not; the storage services are described in UploadModel.v by what their documentation promises); logging, flags, varz pages, stack traces.
* In EsockModel: `Connect`, moving a socket between proactors, callbacks that call the socket before they return, kqueue.
* In UFileModel: opening files (flags, fadvise, statx), sizes of 2^32 or more, O_APPEND, files changed by others during a call.
* Allocation failure.
* Signals, process exit, `fork`.

## Findings

What the models say the code does and a user would not expect. Each is backed by the theorem named, unless marked (read).

*Integers and buffers.*
- `base/flit.h` `EncodingLength` gives 10 for values from 2^63 (`flit_length_refuted`); `Parse64Fast` on a 5-byte uint32 encoding
  gives 8v (`flit_fast_u32_refuted`); shifts by 64 for 8-byte encodings (`flit_roundtrip_x86_refuted`); `Parse64Safe` reads past the end for 8 zero bytes (`flit_safe_refuted`).
- `SegmentPool::Request(0)` corrupts the pool (`segpool_zero_request_refuted`), also through `RequestBuffer(0)` (`uring_zero_buffer_refuted`).
- `AppendUrlDecoded("")` into an empty string calls `front()` on it (`url_decode_empty_refuted`).
- `PODArray`: five (`pod_*_refuted`): sizes that are no power of two, `resize_fill`, `push_back(a[i])`, moving across resources, zero elements.
- `PmrArena`: sizes from 4 GB are truncated (`arena_large_refuted`); `Swap` across resources (`arena_swap_refuted`).
- `string_view_sso(const char*)` takes `strlen` before it looks for null; `find`/`rfind` are declared and not defined (read).
- `CuckooMap`: dense ids are 32-bit (`cuckoo_dense_refuted`); `shifts_limit_` is 0 so keys are never displaced (read).
- `CuckooMap::Compact` frees the old table before it knows that a smaller one works. After ten failed tries it returns false, keys are gone and `size()` still counts them (`compact_refuted`, 45 keys). It searches from the first bucket of a key only and so gives up although the keys fit (`compact_search_refuted`).

*Concurrency.*
- `EventCount`: 2^32 notifications inside one wait can be missed (`ec_no_lost_wakeup_refuted`).
- `Done::Notify` and `Future::Resolve` wake one fiber (`done_all_released_refuted`, `future_getref_released_refuted`).
- `SharedMutex::try_lock_shared` rolls back without notifying: a writer stays suspended (`shared_released_refuted`).
- `Barrier::Cancel` notifies outside of the mutex (`barrier_cancel_race_refuted`) and can be lost (`barrier_cancel_lost_refuted`).
- `SimpleChannel`: Push suspended with room, Push and Pop both suspended, Pop suspended with an element (`channel_*_refuted`).
- `FiberQueue::Run` may return with accepted callbacks left (`fq_shutdown_refuted`).
- Proactor: a task can be queued in a sleeping proactor until an earlier submitter goes on (`wake_prompt_refuted`).
- On-idle tasks: read past the vector, wrong task unregistered, ids reused (`idle_*_refuted`).
- io_uring callbacks: the table is reallocated under a running multishot callback (`ring_safe_refuted`).
- Direct fds: a registration the kernel refuses loses its slot (`fdtab_full_refuted`).
- Epoll: a stale event of the same batch is given to the wrong callback (`epoll_own_refuted`); the table is reallocated under a running callback (`epoll_safe_refuted`).
- Listener: a connection that migrates during `TraverseConnections` can be missed (`listener_visits_refuted`).
- Scheduler: `Launch::dispatch` between a background and a normal fiber is undefined behaviour (`sched_dispatch_refuted`); `WaitUntil(max)` reports a
  timeout when notified (`sched_forever_refuted`); a high priority fiber woken by the timer is put at the back (`sched_high_refuted`); migrating a
  background fiber fails a `CHECK` because the dispatcher is not queued while one runs (read).

*Streams and text.*
- `Sink::Write` of empty vectors only reports an error (`sink_write_empty_reports_error`); `AsyncRead` at the end of the stream never completes (`async_read_eof_never_completes`); `PrefixSource` with an empty first buffer (`prefix_source_false_eof`).
- `LineReader` splits lines at short reads (`linereader_*_refuted`); `ini::Parse` and a comment behind a header (`ini_header_comment_refuted`).
- `ReadAll` stores behind the buffer after two short reads (`file_overflow_refuted`); `ReadFileToString` fails for /proc files from 4096 bytes (`read_proc_file_refuted`); `ReadProcFile` stops at a blank line and drops an unterminated last one (`proc_*_refuted`).
- RESP parser: writes behind its block, dangling argument, late command (`resp_*_refuted`).
- `AbstractStorageFile::WriteSome` never advances its `iovec` pointer: a write of two buffers stores the first one twice, for S3, Azure and GCS, and
  returns success (`upload_vectored_refuted`). After a failed part upload the S3 and GCS writers have lost the part, and a later `Close` completes an
  object with a hole (`upload_gap_refuted`); Azure and `S3WriteFile` do not (`upload_azure_object_partial`, `sdk_object`). S3 cannot store an empty
  object (`upload_s3_empty_refuted`). A part size of 0 aborts or, in `S3WriteFile`, loops for ever (`upload_aborts`, `sdk_zero_part_refuted`).
- HTTP clients: a handle given back with an unread body goes to the next caller, who parses the rest of the body as its answer; `GcsReadFile` does this
  when it is destroyed before its end on a shared pool (`send_unread_refuted`). `Client::Send` writes the request `retry_cnt_` times when writing
  succeeds (`send_retry_count_refuted`). Error bodies above 8 MB are left on the connection (`send_large_error_refuted`). Each attempt of `Send`
  takes another idle connection, so three stale ones defeat `Send(3)` (`send_stale_refuted`). `Send(0)` returns success (`send_zero_refuted`).
- Cloud readers: a read of `S3ReadFile` that fails after its first chunk has consumed bytes which the next read skips (`s3_hole_refuted`); an empty object
  cannot be read (`s3_empty_refuted`); a response that ignores the range overflows the buffer (`s3_whole_refuted`). `GcsReadFile` keeps the connection when
  the length is missing from the response, so the next read aborts the process (`gcs_no_length_refuted`).
- TLS: an empty buffer among those of WriteSome or TrySend can reach `Engine::Write`, whose `CHECK(!buf.empty())`
  aborts the process; the empty-buffer check of TrySend only covers the front (`tls_empty_write_refuted`).
- TLS: TrySend may report EAGAIN with nothing sent while OpenSSL has already built a record of the data. A later
  shorter TrySend is a "bad write retry": the connection dies (`tls_retry_refuted`).
- TLS: RecvMsg into a buffer of length 0 spins forever in release builds (`tls_zero_read_refuted`; a DCHECK in debug
  builds).
- `AsyncWriteSome` may send its bytes twice (`async_write_twice_refuted`). If the read request is in an upstream
  write (say, the answer to a key update), the new write pushes its bytes into the engine and then waits;
  `RunPending` (tls_socket_async.cc:331-335) restarts it by calling `AsyncWriteSome` with all its buffers, which
  pushes them again. `engine_written_` of the waiting request is dropped.
- `AsyncReadProgressCb` calls `RunPending` before `CommitInput` (tls_socket_async.cc:51-66). A write that waits to
  read then starts an upstream read into the part of the BIO that holds the bytes just received; when it
  completes, `CommitInput` commits bytes that were never received (`async_read_garbled_refuted`).
- `AsyncWriteSome` on a connection the engine reports as closed completes with success and 0 bytes
  (`async_write_zero_refuted`; `AsyncSink::AsyncWrite` then tries again forever). `AsyncReadSome` with an empty
  buffer never completes (`async_empty_read_refuted`).
- `EpollSocket`: a recv hook registered while input is unread may never be told of it: the wake-up of a blocked *writer* clears
  `read_notified_` (`epoll_hook_lost_refuted`), and so does a reader that then leaves a part unread (`epoll_hook_after_recv_refuted`).
- `EpollSocket`: an error callback registered after the peer has closed is never called (`epoll_errcb_late_refuted`).
- `EpollSocket::Recv`: a blocked call that is woken after a reset returns an error before data that arrived earlier
  (`epoll_recv_error_hides_data_refuted`); after `Shutdown(SHUT_WR)` it reports the end of the stream while data is unread
  (`epoll_half_close_refuted`: IS_SHUTDOWN does not record which side was closed).
- `EpollSocket::Close` without `Shutdown` leaves a blocked call waiting for ever (`epoll_close_hang_refuted`).
- `EpollSocket`, not in a theorem: `RegisterOnRecv` does not check `read_req_` (which shares a union with the hook), so that it loses a
  fiber blocked in `Recv`; `WriteSome` during a pending `AsyncWriteSome` overwrites that request in a release build (DCHECK only);
  `ResetOnRecvHook` called from the hook destroys the function that runs.
- `UringProactor::EpollDel` reads the request's id once. If the kernel ends the multishot (a completion without `IORING_CQE_F_MORE`) while the
  removal is under way, PollRemove reports ENOENT, and the pending completion arms the poll again: EpollDel returns, but the callback goes on being called
  and the entry is never deleted (`upoll_late_refuted`). For a UringSocket the callback holds the socket, which is then closed and freed.
- A poll request that fails by itself deletes the entry and decrements `pending_epoll_removals_` although nobody called EpollDel; a later EpollDel
  uses the deleted entry (`upoll_failed_refuted`).
- Multishot receives: when all buffers of the ring are in use, the kernel ends the recv with ENOBUFS, and the hook does `LOG(FATAL)`: a peer that
  sends as much as the ring holds before the proactor gets to the completions aborts the process, whatever the ring size (`bufring_burst_refuted`).
- The error given to a multishot hook is `error_code(-res)` after `res = -res`: a negative errno (`bufring_error_refuted`).
- Nothing sets `register_recv_multishot_`, so ResetOnRecvHook and Close never cancel a multishot recv, and its completions use the socket and
  the hook afterwards (`bufring_reset_refuted`).
- `AddToRing` and `GetBufPtr` compute `bid * entry_size` in 32 bits: buffers of a ring with more than 4GB share memory (`bufring_4gb_refuted`).
- A file from `OpenFiberReadFile` hangs on a seek (C75, `ffile_seek_refuted`): `ReadFromCache` calls `HandleActivePrefetch`
  whenever the offset is not the expected one, also if no prefetch is active; `done_.Wait` then waits for a notification that
  never comes (fiber_file.cc:204-208, 237).
- A failed prefetch is taken for a success (C75, `ffile_stale_refuted`, `ffile_overrun_refuted`): its result -1 is stored in a
  `size_t` and compared with `> 0` (fiber_file.cc:238-240), so that the next read returns stale bytes of the buffer, or bytes from
  behind it, without an error.
- A `FiberReadFile` that is destroyed without `Close` while a prefetch is active is used after its destruction
  (C75, `ffile_destroy_refuted`).
- With prefetching, `Read` with several iovecs fills only the first one (fiber_file.cc:272). That is a legal short read, unless the
  first one is empty. (Not modelled.)
- `DnsResolve(host, dest_ip)` wakes its caller before the callback, which runs in the thread of c-ares, stores the result
  (dns_resolve.cc:120-149): the caller may return success without an address (C76, `dns_global_refuted`), and the callback then
  writes to its dead frame (`dns_global_uaf_refuted`).
- `ProcessChannel` calls `ares_process_fd` while it iterates over `sockets_state`. A socket that c-ares opens then is inserted into
  the map, and a rehash invalidates the iterator (C76, `dns_rehash_refuted`). Only removal is cared for (`removed`).
- A change of the events that c-ares wants for an open socket is skipped (dns_resolve.cc:110-112; C76, `dns_mask_refuted`).
- `GCS::ListBuckets` stops, with success, at the first page without "items", even if that page has a nextPageToken (gcs.cc:368-370):
  `list_buckets_refuted`. `GCS::List` does not.
- Azure `Storage::ListContainers` never looks at NextMarker (storage.cc:429-459): beyond one page of containers the rest is silently
  missing: `list_containers_refuted`.
- `CuckooMapTable::Reserve` of an empty map computes the number of buckets in 32 bits without a minimum (cuckoo_map.cc:298-299,
  cuckoo_map-internal.h:151): `Reserve(2^34)` makes 1 bucket, and FromHash, which has no case for powers of two, then leaves the table:
  `bucket_reserve_refuted`.
- `GetPrimeNotLessThan` never returns for 2^32 and above, since `i * i` in IsPrime has 32 bits (cuckoo_map.cc:26): `prime_refuted`.
- libdivide_128_div_64_to_64, where there is no x86 instruction, shifts by 64 for divisors from 2^63 on: `div_u64_refuted`.
- `SetBucketCount` sets the limit of shifts to twice the trailing zeros of an odd number, that is 0 (cuckoo_map.cc:431): the map never
  moves entries on insertion, it grows instead. No property is broken by that.
- `UringSocket::Recv` does not test `IS_SHUTDOWN`, though `RecvMsg`, `WriteSome`, the asynchronous calls and `TryRecv` do: after `Shutdown`,
  `ReadSome` of one buffer waits for or returns data where `ReadSome` of two fails with `connection_aborted` (`usock_recv_refuted`).
- `UringSocket::AsyncWriteSome` and `AsyncReadSome` pass `EAGAIN` to their callback; the blocking calls retry, because "EAGAIN can happen in case
  of CQ overflow" (`usock_async_refuted`). `AsyncWriteSome` also uses `native_handle()` together with `register_flag()`; with direct descriptors
  (switched off by `kEnableDirect`) that would name another file.
- `UringSocket::Connect` leaves the descriptor in the socket when it fails; calling it again without `Close` fails `CHECK_EQ(fd_, -1)`
  (`usock_connect_refuted`).
- A request's descriptor is looked up at submission. A socket closed after `AsyncWriteSome` and before that leaves a request whose descriptor
  number can by then be another connection's (`usock_reuse_refuted`).
- `fd_` holds descriptors below 2^27, not the 256M of the comment in fiber_socket_base.h (`usock_word_refuted`).
- `ReadFileImpl::Read` of an io_uring file can write behind a buffer: `ReadAll` advances the pointer after
  a short read but asks for the whole size again (`file_read_refuted`).
- `LinuxFile::Read` past the end of the file never returns: `ApplyExactly` repeats a read that gives 0
  (`linux_read_past_end_refuted`). `ReadFixed` reports success for a short read
  (`read_fixed_refuted`).
- `LinuxFile::ReadFixed` and `FSync` of a file registered with the ring leave out IOSQE_FIXED_FILE: they
  act on the file whose descriptor equals the slot (`file_target_refuted`). `CloseFile` never closes
  descriptor 0 (`file_close_zero_refuted`). Seen, not modelled: `OpenRead` reports errno after a failed
  request of fadvise instead of its result, and paths are passed as `string_view::data()`, which need not
  end with a zero.
- S3 requests for keys with `!`, `*`, `(` or `)`, and listings with such a prefix, are signed wrongly: the
  library leaves these characters alone, S3 encodes them (`sign_path_refuted`, `sign_query_refuted`). Keys are
  put into the target without encoding: `%` and `?` in a key name another object (`s3_key_refuted`), a blank
  breaks the request line. A request signed again with credentials that have no session token keeps the old
  one (`sign_old_token_refuted`).
- `AwsCredsProvider::RefreshToken` reports success to a fiber that waited for another's refresh even if that
  refresh failed (`cred_wait_refuted`). `RefreshIfExpiring` does not look again after it has claimed the flag,
  so a fiber may refresh credentials that another has just replaced (`cred_twice_refuted`).
- `AwsCredsProvider::Init`: the documentation has AWS_REGION before AWS_DEFAULT_REGION, the code has it the other
  way round (`region_order_refuted`), and either variable set to the empty string gives an empty region
  (`region_empty_refuted`). An answer that is JSON but not an object, or an empty one, is undefined behaviour in
  `ParseJsonCredentials` (`init_ub_refuted`). `ParseHttpUrl` splits `[::1]` at the last colon
  (`url_brackets_refuted`), so an endpoint with an IPv6 address on the usual port is lost (`endpoint_same_refuted`).
- `FileLogSink` flushes only when the same log gets another message: nothing flushes periodically, so `--logbufsecs` ("buffer log messages for at most
  this many seconds") does not bound how long a warning stays in memory (`log_age_refuted`). `LogFile::Open` names files by the second and resets
  `file_length_` although it appends: rotations within a second never start a new file, and the size limit does not hold (`log_size_refuted`).
  `LogFile::Close` ignores the result of `fclose`, which writes up to a megabyte: messages are lost without a word (`log_close_refuted`). Severities are
  clamped before they are compared with `--logbuflevel`, so that with level 2 a FATAL message is not flushed at once.
- The HTTP listener (C85): a callback registered for a built-in path (`/flagz`, say) is accepted by `RegisterCb` but never called; `/flagz?flag=x` without a value sets the flag to the empty text instead of showing it; `/flagz` alone shows nothing, since the list of all flags is only given to a request with exactly one argument and `absl::StrSplit` splits the null view of a missing query into none (`/flagz?` works); a `/filez` name that the file system cannot resolve (no permission, name too long) throws out of the request handler and ends the connection, so neither that request nor those pipelined after it are answered; a second `ParseFromBuffer` call does not continue what the first one kept, so bytes inside one request can be served as another. Also, the scheme of the Authorization header is compared with case, so `basic` counts as no credentials, and the file that was checked is opened again by its unresolved name, so a link swapped in between is followed.
- Azure `Sign` leaves the standard headers other than Content-Length out of the signed text, so a request with `Range` or `Content-Type` is refused by the service (`az_range_refuted`); so is one with a repeated parameter (`az_twice_refuted`). A parameter without value takes `front()` of an empty string (`az_empty_refuted`). The library's own requests have none of these.
- Azure `Init` accepts a key that is not Base64; the first `Sign` then ends the process (`az_key_refuted`).
- Azure: `BlobEndpoint` of the connection string (an emulator, a sovereign cloud) is ignored if the account is named in the URI; requests go to `core.windows.net` (`az_endpoint_refuted`).
- Azure: an identity reply that is JSON but not an object, or empty, is undefined behaviour (`az_imds_refuted`).
- Azure (reading only): `RefreshToken` runs `SetBearer`, which writes `account_info_`, `account_key_`, `source_` and `auth_mode_` without the lock, while other threads read them in `Sign` and `ServiceEndpoint`; the header calls these fields immutable after `Init`. `expire_time_` is stored and never read. Block ids are `Dec(id, kZeroPad4)`, so a file of more than 9999 blocks has ids of different lengths, which the service refuses.
- `AddListener` reports success without adding the listener if no socket can be created: the errors of `Create` are dropped and an empty `error_code` is returned; the variant that takes a port then dereferences a null `socket()` (`srv_silent_refuted`). After a failed `Bind` the other addresses of the same family are not tried (`srv_other_refuted`).
- A connection that migrates while its listener shuts down can be missed, so that `Wait` lasts until the peer hangs up (`srv_missed_refuted`); `Wait` can return while it is on its way, and it then decrements counters of a destroyed listener, or dereferences `find(this)` of a map without entry on its next migration (`srv_wait_refuted`); if it migrates during `conn.Shutdown()`, `is_linked()` is true and the loop goes on in another thread's list (`srv_iter_refuted`).
- `VarzListNode::Format` escapes nothing (C88, base/varz_node.cc:40-62): a quote in a string or key gives the text of another value
  (`varz_quote_refuted`), a backslash at the end of a string gives text that is not JSON (`varz_backslash_refuted`).
- `VarzMapAverage::GetData` (C88, util/fibers/varz.cc:54-82) does not merge the threads' maps, so a key used on two threads is listed
  twice (`varz_avg_twice_refuted`). It blocks on a fiber mutex inside the loop over the thread's hash map; an `IncBy` with a new key on
  that thread may rehash the map under the loop (`varz_avg_rehash_refuted`). `varz_avg_safe` gives the use that is safe: no new keys.
- By reading only: `Iterate` holds a spin lock while `GetData` waits for other threads, so a fiber of the same thread that then
  constructs or destroys a variable spins and never lets the first go on.
- `Xoroshiro128p::jump` (C89, base/random.h:117-141) is documented as equivalent to 2^64 calls. Its constants are those published for
  the shifts 55, 14, 36; the generator uses 24, 16, 37. From no state does it jump by 2^64 calls (`x_jump_refuted`), so nothing keeps
  the sequences of two threads apart. The right constants are 0xdf900294d8f554a5, 0x170865df4b3201fc (`x_jump_right`).
- `ZStdSource` drops output at the end (`zstd_entire_refuted`).
- Human readable sizes: overflow, odd values above 2^52, bytes behind the view, lax syntax, the flag type does not round-trip (`human_*_refuted`).
- Histogram: `max()` of negative samples is 0 (`hist_within_refuted`).
- Metrics: lost increments, write past a vector, label sets that share a counter (`metrics_*_refuted`).

## Theorems and their assumptions

"closed": `Print Assumptions` prints "Closed under the global context". (The table is written by `tools/design.py`.)

<!-- theorems -->
| property | status | theorems | Print Assumptions |
|---|---|---|---|
| C01 | proved | `iobuf_fifo`, `iobuf_ensure_capacity`, `iobuf_shrink` | closed (all 3) |
| C02 | proved | `ring_fifo` | closed (all 1) |
| C03 | proved | `segpool_disjoint`, `uring_buffers_disjoint` | closed (all 2) |
| C04 | proved | `segpool_fully_free` | closed (all 1) |
| C05 | partial | `segpool_zero_request_refuted`, `uring_zero_buffer_refuted`, `segpool_disjoint` | closed (all 3) |
| C06 | partial | `flit_roundtrip_partial`, `flit_roundtrip_std`, `flit_roundtrip_x86_refuted`, `flit_parse64fast`, `flit_minimal`, `flit_fast_encoder`, `flit_parse_length`, `flit_length_partial`, `flit_length_refuted`, `flit_fast_u32_partial`, `flit_fast_u32_refuted` | closed (all 11) |
| C07 | partial | `flit_safe_ub_iff`, `flit_safe_refuted`, `flit_safe_roundtrip_partial`, `flit_safe_truncated_partial` | closed (all 4) |
| C08 | proved | `zigzag_bijection`, `zigzag_small` | closed (all 2) |
| C09 | proved | `url_decode_spec`, `url_encode_spec`, `url_roundtrip`, `http_url_roundtrip`, `url_decode_empty_refuted` | closed (all 5) |
| C10 | proved | `sliding_window` | closed (all 1) |
| C11 | proved | `spsc_linearizable`, `spsc_safe`, `spsc_no_race`, `spsc_destroy` | closed (all 4) |
| C12 | proved | `mpmc_safe`, `mpmc_linearizable`, `mpmc_enqueue_false`, `mpmc_dequeue_false`, `mpmc_no_race`, `mpmc_empty_full`, `mpmc_destroy` | closed (all 7) |
| C13 | proved | `mpsc_safe`, `mpsc_linearizable`, `mpsc_empty_true`, `mpsc_pop_quiet` | closed (all 4) |
| C14 | proved | `ec_no_lost_wakeup`, `ec_quiescent`, `ec_no_lost_wakeup_short`, `ec_progress`, `ec_safe`, `ec_no_lost_wakeup_refuted`, `ec_notify_one_refuted` | closed (all 7) |
| C15 | proved | `mutex_exclusion`, `mutex_safe`, `mutex_handover`, `mutex_quiescent`, `mutex_progress` | closed (all 5) |
| C16 | proved | `counter_result`, `counter_released`, `counter_safe` | closed (all 3) |
| C17 | partial | `shared_exclusion`, `shared_safe`, `shared_released_refuted`, `shared_reader_released`, `shared_released_partial` | closed (all 5) |
| C18 | proved | `barrier_rounds`, `barrier_released`, `barrier_one_true`, `barrier_some_true`, `barrier_safe` | closed (all 5) |
| C19 | partial | `done_all_released_refuted`, `future_getref_released_refuted`, `done_released_partial`, `future_released_partial`, `future_value`, `future_get_once` | closed (all 6) |
| C20 | partial | `channel_safe`, `channel_fifo`, `channel_closed`, `channel_close_wakes`, `channel_pop_wakes_partial`, `channel_pop_not_stuck_partial`, `channel_no_deadlock`, `channel_push_room_refuted`, `channel_push_pop_refuted`, `channel_mpmc_pop_refuted` | closed (all 10) |
| C21 | proved | `sink_write_ok`, `sink_write_error`, `sink_write_pending`, `sink_write_progress`, `sink_write_empty_reports_error`, `async_write_correct`, `async_read_correct`, `async_read_eof_never_completes` | closed (all 8) |
| C22 | proved | `read_at_least_done`, `read_at_least_other`, `source_read_full` | closed (all 3) |
| C23 | proved | `bytes_source_stream`, `bytes_source_fits`, `buf_pipe`, `string_sink_correct`, `null_sink_correct`, `prefix_source_stream`, `prefix_source_false_eof` | closed (all 7) |
| C24 | partial | `linereader_lines_partial`, `linereader_runs`, `linereader_short_read_refuted`, `linereader_crlf_refuted`, `linereader_error` | closed (all 5) |
| C25 | partial | `ini_grammar_total`, `ini_parse_partial`, `ini_error`, `ini_header_comment_refuted` | closed (all 4) |
| C26 | partial | `file_read_partial`, `file_overflow_refuted`, `file_source_partial`, `read_file_to_string_partial`, `read_proc_file_refuted` | closed (all 5) |
| C27 | partial | `proc_lines_partial`, `proc_header_partial`, `proc_stops`, `proc_error`, `proc_blank_line_refuted`, `proc_last_line_refuted` | closed (all 6) |
| C28 | partial | `metrics_calls`, `metrics_partial`, `metrics_one_thread_partial`, `metrics_increments`, `metrics_lost_refuted`, `metrics_oob_refuted`, `metrics_concat_refuted` | closed (all 7) |
| C29 | proved | `hist_count`, `hist_bucket`, `hist_falls`, `hist_total`, `hist_same`, `hist_range`, `hist_sum` | closed (all 7) |
| C30 | partial | `hist_percentile_safe`, `hist_monotone`, `hist_minmax`, `hist_percentile_partial`, `hist_percentiles`, `hist_within_refuted` | closed (all 6) |
| C31 | partial | `pod_vector_partial`, `pod_size_refuted`, `pod_fill_refuted`, `pod_own_refuted`, `pod_move_refuted`, `pod_zero_refuted` | closed (all 6) |
| C32 | partial | `arena_partial`, `arena_large_refuted`, `arena_swap_refuted` | closed (all 3) |
| C33 | partial | `cuckoo_map`, `cuckoo_insert`, `cuckoo_iter`, `cuckoo_defined`, `cuckoo_dense_refuted` | closed (all 5) |
| C34 | partial | `sched_safe_partial`, `sched_once`, `sched_fifo`, `sched_bound`, `sched_woken`, `sched_remote`, `sched_front`, `sched_wait`, `sched_sleepers`, `sched_early`, `sched_timeout_partial`, `sched_dispatch_refuted`, `sched_forever_refuted`, `sched_high_refuted` | closed (all 14) |
| C35 | partial | `wake_order`, `wake_summoned`, `wake_remote`, `wake_oldest`, `wake_quiescent`, `wake_runs`, `wake_prompt_refuted` | closed (all 7) |
| C36 | partial | `idle_add`, `idle_remove`, `idle_safe_partial`, `idle_calls`, `idle_ret`, `idle_turn`, `idle_safe_refuted`, `idle_ret_refuted`, `idle_unique_refuted` | closed (all 9) |
| C37 | partial | `ring_completion`, `ring_ignored`, `ring_once`, `ring_tags`, `ring_pending`, `ring_safe_partial`, `ring_safe_refuted` | closed (all 7) |
| C38 | partial | `fdtab_safe`, `fdtab_fresh`, `fdtab_translate`, `fdtab_unreg`, `fdtab_kernel`, `fdtab_count`, `fdtab_full_partial`, `fdtab_full_refuted` | closed (all 8) |
| C39 | partial | `epoll_own_partial`, `epoll_delivered`, `epoll_skipped`, `epoll_arm`, `epoll_disarm`, `epoll_safe_partial`, `epoll_own_refuted`, `epoll_safe_refuted` | closed (all 8) |
| C40 | proved | `join_safe`, `join_after`, `join_wakes`, `join_once`, `join_returns` | closed (all 5) |
| C41 | proved | `advance_iovec`, `advance_iovec_too_far`, `is_empty_iovec`, `iovec_total_bytes` | closed (all 4) |
| C42 | partial | `resp_partial`, `resp_overflow_refuted`, `resp_dangling_refuted`, `resp_late_refuted` | closed (all 4) |
| C43 | proved | `sso_make`, `sso_cstr`, `sso_null`, `sso_access`, `sso_copy`, `sso_substr`, `sso_swap`, `sso_compare`, `sso_compare_sub`, `sso_operators` | closed (all 10) |
| C44 | partial | `human_exact_partial`, `human_exact_frac_partial`, `human_close`, `human_accepts`, `human_overflow_refuted`, `human_exact_refuted`, `human_view_refuted`, `human_accepts_refuted` | closed (all 8) |
| C45 | partial | `zstd_entire_partial`, `zstd_sound`, `zstd_defined`, `zstd_decoder`, `zstd_entire_refuted` | closed (all 5) |
| C46 | partial | `fq_safe`, `fq_fifo`, `fq_answered`, `fq_add_wakes`, `fq_run_wakes`, `fq_quiescent`, `fq_shutdown_refuted`, `fq_returns_partial` | closed (all 8) |
| C47 | proved | `listener_excl`, `listener_limit`, `listener_accept`, `listener_idle` | closed (all 4) |
| C48 | proved | `parse_query_lossless`, `split_query_lossless` | closed (all 2) |
| C49 | proved | `condvar_no_lost_wakeup` | closed (all 1) |
| C50 | partial | `barrier_cancel_race_refuted`, `barrier_cancel_lost_refuted`, `barrier_cancel_partial` | closed (all 3) |
| C51 | proved | `periodic_safe`, `periodic_runs`, `periodic_cancelled`, `periodic_quiet`, `periodic_one` | closed (all 5) |
| C52 | partial | `listener_visits_partial`, `listener_visit`, `listener_visits_refuted` | closed (all 3) |
| C53 | partial | `human_roundtrip_partial`, `human_roundtrip_small`, `human_roundtrip_unit`, `human_flag_partial`, `human_flag_refuted` | closed (all 5) |
| C54 | partial | `compact_map_partial`, `compact_returns`, `compact_refuted`, `compact_search_refuted` | closed (all 4) |
| C55 | partial | `upload_object_partial`, `upload_azure_object_partial`, `upload_returns`, `upload_aborts`, `upload_delivers_partial`, `upload_part_sizes`, `upload_vectored_refuted`, `upload_gap_refuted`, `upload_s3_empty_refuted` | closed (all 9) |
| C56 | proved | `sdk_object`, `sdk_object_all`, `sdk_returns`, `sdk_delivers`, `sdk_part_sizes`, `sdk_zero_part_refuted` | closed (all 6) |
| C57 | partial | `send_paired_partial`, `send_unread_refuted`, `send_retry_count_refuted`, `send_large_error_refuted` | closed (all 4) |
| C58 | partial | `send_success`, `send_failure`, `send_bounded`, `send_resigned`, `send_healthy_partial`, `send_stale_refuted`, `send_zero_refuted` | closed (all 7) |
| C59 | proved | `pool_safe`, `pool_exclusive`, `pool_count` | closed (all 3) |
| C60 | partial | `s3_reads_partial`, `s3_size`, `s3_complete`, `s3_hole_refuted`, `s3_empty_refuted`, `s3_whole_refuted` | closed (all 6) |
| C61 | partial | `stream_reads_partial`, `stream_complete`, `gcs_no_length_refuted` | closed (all 3) |
| C62 | partial | `tls_write_stream`, `tls_flushed`, `tls_empty_write_refuted`, `tls_retry_refuted` | closed (all 4) |
| C63 | partial | `tls_read_stream`, `tls_no_truncation`, `tls_zero_read_refuted` | closed (all 3) |
| C64 | proved | `tls_safe`, `tls_no_deadlock`, `tls_try_recv_again`, `tls_wake` | closed (all 4) |
| C65 | partial | `async_write_stream_partial`, `async_flushed_partial`, `async_read_stream_partial`, `async_no_truncation_partial`, `async_safe`, `async_no_hang`, `async_resumed`, `async_write_twice_refuted`, `async_read_garbled_refuted`, `async_write_zero_refuted`, `async_empty_read_refuted` | closed (all 11) |
| C66 | proved | `epoll_safe`, `epoll_woken`, `epoll_async_woken`, `epoll_shutdown_wakes`, `epoll_shut_returns`, `epoll_close`, `epoll_timeout_returns`, `epoll_no_timeout`, `epoll_accept_timeout`, `epoll_close_hang_refuted` | closed (all 10) |
| C67 | partial | `epoll_recv_stream`, `epoll_write_stream`, `epoll_result`, `epoll_recv_error_hides_data_refuted`, `epoll_half_close_refuted` | closed (all 5) |
| C68 | partial | `epoll_async_once`, `epoll_hook_told`, `epoll_hook_all_partial`, `epoll_errcb_told`, `epoll_errcb_once`, `epoll_hook_lost_refuted`, `epoll_hook_after_recv_refuted`, `epoll_errcb_late_refuted` | closed (all 8) |
| C69 | partial | `upoll_safe_partial`, `upoll_armed_partial`, `upoll_quiet_partial`, `upoll_freed_partial`, `upoll_late_refuted`, `upoll_failed_refuted` | closed (all 6) |
| C70 | partial | `bufring_safe`, `bufring_stream`, `bufring_all`, `bufring_returned`, `bufring_handled_partial`, `bufring_armed`, `bufring_burst_refuted`, `bufring_error_refuted`, `bufring_reset_refuted`, `bufring_4gb_refuted` | closed (all 10) |
| C71 | proved | `errcb_safe`, `errcb_once`, `errcb_remove_own`, `errcb_no_leak`, `errcb_watched`, `errcb_reported`, `errcb_cancel_removes` | closed (all 7) |
| C72 | proved | `rwspin_exclusion`, `rwspin_stable`, `rwspin_clean`, `rwspin_lock`, `rwspin_shared`, `rwspin_upgrade`, `rwspin_promote`, `rwspin_upgrader_blocks`, `rwspin_no_overflow` | closed (all 9) |
| C73 | proved | `pool_await`, `pool_fifo`, `pool_awake`, `pool_progress`, `pool_terminates` | closed (all 5) |
| C74 | proved | `intern_content`, `intern_valid`, `intern_same`, `intern_once`, `intern_empty`, `intern_race_free` | closed (all 6) |
| C75 | partial | `ffile_safe_partial`, `ffile_right_partial`, `ffile_exact_partial`, `ffile_error`, `ffile_returns_partial`, `ffile_closes`, `ffile_close`, `ffile_seek_refuted`, `ffile_stale_refuted`, `ffile_overrun_refuted`, `ffile_destroy_refuted` | closed (all 11) |
| C76 | partial | `dns_global_partial`, `dns_safe_partial`, `dns_armed_partial`, `dns_clean_partial`, `dns_global_refuted`, `dns_global_uaf_refuted`, `dns_rehash_refuted`, `dns_mask_refuted` | closed (all 8) |
| C77 | partial | `list_gcs_url`, `list_s3_url`, `list_az_url`, `list_buckets_url`, `list_sees_unique`, `list_gcs_loop`, `list_s3_loop`, `list_az_loop`, `list_unique`, `list_buckets_partial`, `list_containers_partial`, `list_buckets_refuted`, `list_containers_refuted` | closed (all 13) |
| C78 | partial | `div_u64`, `div_u32`, `div_alg`, `div_mullhi`, `div_wide_partial`, `bucket_mod`, `bucket_cuckoo`, `prime_partial`, `prime_returns_partial`, `div_u64_refuted`, `bucket_reserve_refuted`, `prime_refuted`, `prime_small_refuted` | closed (all 13) |
| C79 | partial | `usock_safe`, `usock_out`, `usock_in`, `usock_once`, `usock_alive`, `usock_waiting`, `usock_fds`, `usock_files`, `usock_close`, `usock_shutdown_sets`, `usock_shut_stays`, `usock_shutdown_partial`, `usock_try_shutdown`, `usock_errors`, `usock_word`, `usock_accepted`, `usock_recv_refuted`, `usock_async_refuted`, `usock_reuse_refuted`, `usock_connect_refuted`, `usock_word_refuted` | closed (all 21) |
| C80 | partial | `file_read_partial`, `file_read_safe_partial`, `file_read_ends`, `file_read_refuted`, `file_write`, `file_write_ends`, `file_written_unique`, `linux_read`, `linux_read_ends_partial`, `linux_read_past_end_refuted`, `read_fixed_partial`, `read_fixed_refuted`, `file_target_partial`, `file_target_refuted`, `file_close_partial`, `file_close_zero_refuted` | closed (all 16) |
| C81 | partial | `sign_accepted_partial`, `sign_built`, `sign_frame`, `sign_token`, `sign_canon_unique`, `sign_path_refuted`, `sign_query_refuted`, `sign_old_token_refuted`, `s3_key_partial`, `s3_key_refuted` | closed (all 10) |
| C82 | partial | `cred_serial`, `cred_asks`, `cred_sign`, `cred_returns_partial`, `cred_bounded`, `cred_available`, `cred_wait_refuted`, `cred_twice_refuted` | closed (all 8) |
| C83 | partial | `ini_total`, `ini_spec`, `url_parsed_partial`, `url_brackets_refuted`, `endpoint_same_partial`, `endpoint_same_refuted`, `endpoint_order_partial`, `region_order_partial`, `region_order_refuted`, `region_empty_refuted`, `init_partial`, `init_ub_refuted` | closed (all 12) |
| C84 | partial | `log_safe`, `log_contents`, `log_buffer`, `log_order`, `log_off`, `log_urgent`, `log_flush`, `log_destroy`, `log_age`, `log_age_refuted`, `log_size`, `log_size_refuted`, `log_close_refuted`, `log_link`, `log_dir` | closed (all 15) |
| C85 | partial | `http_auth`, `http_dispatch`, `http_register`, `http_shadow_refuted`, `http_flagz`, `http_flagz_refuted`, `http_filez`, `http_filez_all`, `http_throw`, `http_throw_refuted`, `http_split`, `http_parse`, `http_stream`, `http_again_refuted` | closed (all 14) |
| C86 | partial | `az_sign`, `az_text_unique`, `az_range_refuted`, `az_twice_refuted`, `az_empty_refuted`, `az_key_refuted`, `az_sas`, `az_sas_again`, `az_bearer`, `az_setting`, `az_setting_unique`, `az_endpoint`, `az_loaded`, `az_requested`, `az_endpoint_refuted`, `az_string_first`, `az_env_next`, `az_identity_last`, `az_defined`, `az_imds_refuted`, `az_fail`, `az_refresh`, `az_object` | closed (all 23) |
| C87 | partial | `srv_add`, `srv_port`, `srv_silent_refuted`, `srv_other_refuted`, `srv_uds`, `srv_safe`, `srv_wait`, `srv_told`, `srv_progress`, `srv_early`, `srv_missed_refuted`, `srv_wait_refuted`, `srv_iter_refuted` | closed (all 13) |
| C88 | partial | `varz_list_safe`, `varz_list`, `varz_format`, `varz_quote_refuted`, `varz_backslash_refuted`, `varz_avg`, `varz_avg_safe`, `varz_avg_twice_refuted`, `varz_avg_rehash_refuted` | closed (all 9) |
| C89 | partial | `sm_distinct`, `sm_all`, `x_seed`, `x_used`, `x_period`, `x_all`, `x_jump_partial`, `x_jump_refuted`, `x_jump_right` | closed (all 9) |
| C90 | proved | `murmur_safe`, `murmur_seed`, `murmur_block`, `fingerprint_marks` | closed (all 4) |
<!-- end -->
