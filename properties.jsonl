{"id": "C01", "title": "IoBuf is a byte FIFO", "statement": "For any sequence of WriteAndCommit / CommitWrite / ConsumeInput / ReadAndConsume / EnsureCapacity / Reserve / ShrinkTo / Clear calls that respects the documented preconditions, InputBuffer() always shows exactly the bytes committed so far and not yet consumed, in order; compaction and reallocation never change it, and no call touches memory outside the allocation. After EnsureCapacity(n), AppendLen() >= n.", "quantifier": "every history of IoBuf calls, every buffer content and every size", "why_tests_cant": "Compaction, reallocation and reset-to-zero depend on the accumulated offset/size, so a defect can need a particular long history.", "anchors": ["base/io_buf.h: IoBuf", "base/io_buf.cc: IoBuf::Reserve, IoBuf::Compact, IoBuf::ShrinkTo, IoBuf::Reallocate"]}
{"id": "C02", "title": "RingBuffer is a bounded FIFO through counter wrap-around", "statement": "A RingBuffer of capacity 2^k behaves as a FIFO queue of at most 2^k elements: TryEmplace fails exactly when 2^k elements are held, TryDeque returns the oldest element, EmplaceOrOverride drops the oldest element only when full, operator[] i is the i-th oldest, and this stays true after the 32-bit head/tail counters overflow.", "quantifier": "every sequence of operations of any length (including more than 2^32 pushes), every power-of-two capacity up to 2^31", "why_tests_cant": "Reaching the counter wrap needs 2^32 operations.", "anchors": ["base/ring_buffer.h: RingBuffer"]}
{"id": "C03", "title": "SegmentPool never lends overlapping segments", "statement": "If every Request asks for at least one unit and only borrowed offsets are returned, two segments that are borrowed at the same time are disjoint and every borrowed segment lies inside [0, Size()).", "quantifier": "every history of Request / Return / Grow", "why_tests_cant": "Overlap would appear only for specific interleavings of out-of-order returns.", "anchors": ["base/segment_pool.h: SegmentPool", "base/segment_pool.cc: SegmentPool::Request, SegmentPool::Return"]}
{"id": "C04", "title": "SegmentPool returns to fully free", "statement": "After every borrowed segment has been returned, a request for the whole pool size succeeds at offset 0 (nothing leaks).", "quantifier": "every history of Request / Return / Grow with non-zero lengths that ends with nothing borrowed", "why_tests_cant": "Leaks depend on the order in which segments are given back.", "anchors": ["base/segment_pool.cc: SegmentPool::Request, SegmentPool::Return"]}
{"id": "C05", "title": "Zero-sized requests to SegmentPool are harmless", "statement": "A Request(0) (reachable through UringProactor::RequestBuffer(0)) does not break the disjointness of the other borrowed segments.", "quantifier": "every history of Request / Return including zero lengths", "why_tests_cant": "Needs a particular five-step history.", "anchors": ["base/segment_pool.cc: SegmentPool", "util/fibers/uring_proactor.cc: UringProactor::RequestBuffer, UringProactor::RequestRegisteredSlice"]}
{"id": "C06", "title": "flit integers round-trip", "statement": "Decoding the flit encoding of any unsigned 64-bit (or 32-bit) integer returns that integer and reports as consumed exactly the number of bytes the encoder wrote, whatever bytes follow in the buffer; the length is between 1 and 9 (1 and 5) bytes and equals the advertised EncodingLength.", "quantifier": "all 2^64 (2^32) values and all following bytes", "why_tests_cant": "2^64 inputs.", "anchors": ["base/flit.h: EncodeT, EncodeTFast, ParseT, Parse64Fast, ParseLengthT"]}
{"id": "C07", "title": "flit parsing has no undefined behaviour on untrusted input", "statement": "Parse64Safe and ParseT, given any readable buffer of any length, never read past its end and never execute a shift by the full word width.", "quantifier": "all byte strings and all lengths", "why_tests_cant": "UB need not be visible when executed, and the failing lengths are few.", "anchors": ["base/flit.h: Parse64Safe, Parse64Fast, ParseT"]}
{"id": "C08", "title": "ZigZag is a bijection", "statement": "ZigZagDecode(ZigZagEncode(v)) = v and ZigZagEncode(ZigZagDecode(u)) = u for all values, and encoding maps |v| < 2^k to values below 2^(k+1).", "quantifier": "all signed 64-bit/32-bit values", "why_tests_cant": "2^64 inputs.", "anchors": ["base/flit.h: ZigZagEncode, ZigZagDecode"]}
{"id": "C09", "title": "URL escaping round-trips", "statement": "AppendUrlDecoded(AppendUrlEncoded(s)) appends exactly s; the encoded text only contains unreserved characters and %XX triplets and is at most 3 times longer; decoding an arbitrary string either succeeds or returns false, and never reads outside the input. The output of http::UrlEncode is decoded back to the input by the same decoder.", "quantifier": "all byte strings", "why_tests_cant": "Unbounded input space.", "anchors": ["strings/escaping.cc: AppendUrlEncoded, AppendUrlDecoded", "util/http/encoding.cc: UrlEncode"]}
{"id": "C10", "title": "SlidingCounter sums exactly its window", "statement": "Sum() returns the sum of the deltas recorded by Inc in the last NUM clock slots (including the current one) and nothing older; SumTail() excludes the current slot.", "quantifier": "every sequence of Inc/Sum calls with any non-decreasing clock, any gap sizes, any window size", "why_tests_cant": "Depends on the history of time gaps modulo the window size.", "anchors": ["util/sliding_counter.h: SlidingCounter"]}
{"id": "C11", "title": "ProducerConsumerQueue is a linearizable SPSC FIFO", "statement": "With one producer and one consumer thread, in every interleaving the consumer receives exactly the values accepted from the producer, in order, each once; write() fails only when size-1 elements are in the queue at that moment and read() fails only when it is empty at that moment.", "quantifier": "every interleaving of one producer and one consumer at the granularity of atomic accesses, every queue size >= 2", "why_tests_cant": "Schedules cannot be enumerated by tests.", "anchors": ["base/ProducerConsumerQueue.h: ProducerConsumerQueue"]}
{"id": "C12", "title": "mpmc_bounded_queue loses and duplicates nothing", "statement": "With any number of producers and consumers, every value accepted by try_enqueue is returned by at most one try_dequeue, in ticket (FIFO) order, none is invented, at most `capacity` accepted values are outstanding, and two threads never access one cell's payload at the same time.", "quantifier": "every interleaving of any number of threads, every power-of-two capacity", "why_tests_cant": "Needs adversarial schedules.", "anchors": ["base/mpmc_bounded_queue.h: mpmc_bounded_queue"]}
{"id": "C13", "title": "MPSC intrusive queue delivers each pushed node exactly once in order", "statement": "With any number of pushing threads and one popping thread, nodes are popped in the order in which their Push took effect, each exactly once; Pop reports `empty` only when no completed push is pending, and never deadlocks once pending pushes complete.", "quantifier": "every interleaving of any number of producers with one consumer", "why_tests_cant": "Needs adversarial schedules (a producer suspended between its two stores).", "anchors": ["base/mpsc_intrusive_queue.h: MPSCIntrusiveQueue"]}
{"id": "C14", "title": "EventCount::await has no lost wake-up", "statement": "If a condition is true while a fiber is suspended inside await()/await_until() on it, then some fiber that changed the state still has to complete its notification: once the notifyAll() calls have completed nobody stays suspended on a true condition. With notify() the same holds when there is a single waiter. Exception: a waiter that is preempted between taking its key and comparing epochs for as long as 2^32 notifications take.", "quantifier": "every interleaving of any number of waiters and notifiers", "why_tests_cant": "Lost wake-ups appear only in narrow windows.", "anchors": ["util/fibers/event_count.h: EventCount", "util/fibers/synchronization.h", "util/fibers/detail/wait_queue.cc: WaitQueue"]}
{"id": "C15", "title": "Fiber Mutex gives mutual exclusion and hand-over", "statement": "At most one fiber is between lock() and unlock(); whenever the mutex is free and no lock/unlock call is in progress, no fiber is suspended waiting for it.", "quantifier": "every interleaving of any number of fibers on any number of threads", "why_tests_cant": "Needs adversarial schedules.", "anchors": ["util/fibers/synchronization.cc: Mutex::lock, Mutex::unlock, Mutex::try_lock"]}
{"id": "C16", "title": "Blocking counters release waiters exactly when the count reaches zero or is cancelled", "statement": "EmbeddedBlockingCounter::Wait returns true only if as many Dec calls happened as were added, returns false only after Cancel, and after the last Dec (or Cancel) completes no fiber stays suspended in Wait.", "quantifier": "every interleaving of any number of Dec/Cancel callers and waiters, every start value", "why_tests_cant": "Needs adversarial schedules.", "anchors": ["util/fibers/synchronization.cc: EmbeddedBlockingCounter", "util/fibers/synchronization.h: BlockingCounter"]}
{"id": "C17", "title": "SharedMutex excludes writers from readers", "statement": "A writer never holds the SharedMutex at the same time as another writer or reader; when nobody holds it and no call is in progress nobody stays suspended.", "quantifier": "every interleaving of any number of readers and writers", "why_tests_cant": "Needs adversarial schedules.", "anchors": ["util/fibers/synchronization.h: SharedMutex"]}
{"id": "C18", "title": "Barrier releases rounds together", "statement": "No fiber returns from the k-th round of Barrier::Wait before all participants have entered the k-th round, and after all have entered all return.", "quantifier": "every number of participants, every number of rounds, every arrival order", "why_tests_cant": "Unbounded rounds and arrival orders.", "anchors": ["util/fibers/synchronization.cc: Barrier"]}
{"id": "C19", "title": "Every waiter of a resolved Done / Future is released", "statement": "After Done::Notify (Future::Resolve) has returned, no fiber remains suspended in Wait()/Get() of that object.", "quantifier": "any number of waiting fibers, every interleaving", "why_tests_cant": "Depends on how many fibers wait at the instant of notification.", "anchors": ["util/fibers/synchronization.h: Done", "util/fibers/future.h: Future"]}
{"id": "C20", "title": "SimpleChannel delivers every pushed item once and drains on close", "statement": "Items come out of a SimpleChannel in the order in which they went in, each exactly once; Pop returns false only after StartClosing was called and every item pushed before the closing was observed has been delivered; no pusher stays suspended when the queue has become empty.", "quantifier": "every interleaving of the producers and consumers, every capacity", "why_tests_cant": "Needs adversarial schedules.", "anchors": ["util/fibers/simple_channel.h: SimpleChannel"]}
{"id": "C21", "title": "Sink::Write writes all the bytes in order or reports an error", "statement": "If Sink::Write returns success, the bytes accepted by WriteSome calls, concatenated, are exactly the concatenation of the given buffers, however the sink splits them into partial writes; if a WriteSome fails, the bytes accepted form a prefix and its error is returned.", "quantifier": "all vectors of buffers and all partial-write behaviours of the underlying sink", "why_tests_cant": "The split points range over all sequences of partial sizes.", "anchors": ["io/io.cc: Sink::Write, ApplyExactly", "io/io.h: Sink"]}
{"id": "C22", "title": "Source::ReadAtLeast reads a prefix of the stream and stops early only at EOF or on error", "statement": "ReadAtLeast(buf, n) places consecutive bytes of the stream at the start of the buffer, never beyond its end, and returns a count below n only if the source reported end-of-stream; Read fills all the given buffers unless EOF.", "quantifier": "all sources (all short-read behaviours), all buffer and minimum sizes", "why_tests_cant": "The short-read patterns are unbounded.", "anchors": ["io/io.cc: Source::ReadAtLeast, Source::Read", "io/io.h: Source"]}
{"id": "C23", "title": "PrefixSource and BytesSource present the exact concatenated stream", "statement": "Reading a PrefixSource until EOF yields its prefix followed by exactly the bytes of the upstream source; reading a BytesSource yields exactly its bytes, for every sequence of read sizes.", "quantifier": "all prefixes, upstream sources and sequences of destination buffers", "why_tests_cant": "Unbounded inputs and chunkings.", "anchors": ["io/io.cc: PrefixSource::ReadSome, BytesSource::ReadSome, BufSource::ReadSome"]}
{"id": "C24", "title": "LineReader returns exactly the lines of the stream", "statement": "Successive Next() calls return the lines of the source (split at LF, with an optional CR stripped), independent of how the source splits its reads and of the internal page size.", "quantifier": "all byte streams, all short-read patterns, all page sizes", "why_tests_cant": "Page-boundary and short-read coincidences are sparse.", "anchors": ["io/line_reader.cc: LineReader::Next"]}
{"id": "C25", "title": "ini::Parse agrees with the line grammar", "statement": "ini::Parse maps every input to the section/key/value structure defined by its documented line grammar (last duplicate wins or first wins as specified), ignoring comments and blank lines.", "quantifier": "all lists of lines", "why_tests_cant": "Unbounded inputs.", "anchors": ["io/line_reader.cc: ini::Parse"]}
{"id": "C26", "title": "Reading a whole file stops at the end of the requested range", "statement": "ReadAll fills at most the requested buffer, with consecutive bytes of the file, for every pattern of partial preads; ReadFileToString returns exactly the content.", "quantifier": "all file contents, all partial-read patterns and EINTR placements", "why_tests_cant": "Partial preads practically never occur in tests.", "anchors": ["io/file.cc: ReadAll, ReadAllPosix", "io/file_util.cc: ReadFileToString"]}
{"id": "C27", "title": "ReadProcFile delivers every key/value line", "statement": "ReadProcFile calls the callback once for every line of the file that contains the separator, in order, whatever the read chunking.", "quantifier": "all file contents and chunkings", "why_tests_cant": "Unbounded inputs.", "anchors": ["io/proc_reader.cc: ReadProcFile"]}
{"id": "C28", "title": "Metric families count every increment under its own label set", "statement": "After any sequence of increments made by any threads, the aggregated value reported for a label set equals the sum of the increments made for exactly this label set.", "quantifier": "all sequences of (thread, labels, delta)", "why_tests_cant": "Depends on the relative order in which different threads first see labels.", "anchors": ["util/metrics/metrics.h", "util/metrics/family.cc: SingleFamily", "util/metrics/family.h"]}
{"id": "C29", "title": "Histogram counts and merges exactly", "statement": "Histogram::count() equals the number of Add'ed samples and the sum of all bucket counters; Merge(a,b) gives the same state as adding all samples of both; every sample falls in the bucket whose half-open interval contains it.", "quantifier": "all sequences of samples and merges", "why_tests_cant": "Unbounded sequences.", "anchors": ["base/histogram.cc: Histogram::Add, Histogram::Merge, Histogram::AddMany"]}
{"id": "C30", "title": "Histogram percentiles are bounded and monotone", "statement": "Every percentile lies between min and max of the samples, and a larger p never gives a smaller value.", "quantifier": "all multisets of samples, all percentile arguments", "why_tests_cant": "Unbounded sequences.", "anchors": ["base/histogram.cc: Histogram::Percentile, Histogram::InterpolateVal"]}
{"id": "C31", "title": "PODArray is a vector", "statement": "push_back, resize, resize_fill, reserve, insert, erase, swap on PODArray act as on a mathematical sequence; memory beyond the allocation is never touched; resize_fill zeroes all the new elements.", "quantifier": "all element sizes, all histories", "why_tests_cant": "Depends on element size / capacity coincidences.", "anchors": ["base/pmr/pod_array.h: PODArray"]}
{"id": "C32", "title": "PmrArena allocations are disjoint, aligned and inside blocks", "statement": "Any two allocations handed out by the arena are disjoint byte ranges, each lies inside a block obtained from upstream and satisfies the requested alignment; MemoryUsage grows by the block sizes.", "quantifier": "all sequences of allocation sizes and alignments", "why_tests_cant": "Depends on the history of remaining bytes.", "anchors": ["base/pmr/arena.cc: PmrArena::AllocateFallback, PmrArena::AllocateNewBlock", "base/pmr/arena.h: PmrArena"]}
{"id": "C33", "title": "CuckooMap is a finite map", "statement": "After any sequence of insertions, Find(k) succeeds exactly for the keys inserted so far, returns the value stored with the first insertion of k, and size() is the number of distinct keys; displacement and growth never lose a key.", "quantifier": "all keys, values, insertion sequences and displacement choices", "why_tests_cant": "Displacement chains depend on hash collisions and randomness.", "anchors": ["base/cuckoo_map.cc: CuckooMapTable", "base/cuckoo_map.h: CuckooMap"]}
{"id": "C34", "title": "The scheduler never loses or duplicates a ready fiber", "statement": "Every fiber activated through the scheduler is run exactly once per activation, ready fibers of the same priority class run in FIFO order (high priority fibers at the front), and a sleeping fiber is woken no earlier than its deadline and in deadline order.", "quantifier": "every sequence of activations, sleeps, notifications and clock values", "why_tests_cant": "Unbounded histories.", "anchors": ["util/fibers/detail/scheduler.cc: Scheduler::AddReady, Scheduler::ProcessSleep, Scheduler::WaitUntil, Scheduler::Preempt, Scheduler::ProcessRemoteReady"]}
{"id": "C35", "title": "A proactor never sleeps while work is queued", "statement": "If a task was put in a proactor's task queue (or a fiber in its remote ready queue) and the submitting call has completed, the proactor thread is not blocked indefinitely in the kernel wait: it is running or a wake-up event is pending.", "quantifier": "every interleaving of any number of submitting threads with the proactor loop", "why_tests_cant": "The sleep/wake race window is a few instructions.", "anchors": ["util/fibers/proactor_base.h: ProactorBase::WakeupIfNeeded, EmplaceTaskQueue", "util/fibers/uring_proactor.cc: UringProactor::MainLoop", "util/fibers/epoll_proactor.cc: EpollProactor::MainLoop"]}
{"id": "C36", "title": "On-idle tasks: unique ids and in-range round robin", "statement": "AddOnIdleTask/RemoveOnIdleTask/RunOnIdleTasks never access a task slot outside the registered range, RemoveOnIdleTask(id) removes only the task registered under id, and a live id is never reassigned to another task.", "quantifier": "every history of add / remove / run and every timing of the loop budget", "why_tests_cant": "Depends on timing: the loop must stop in the middle of the array.", "anchors": ["util/fibers/proactor_base.cc: AddOnIdleTask, RunOnIdleTasks, RemoveOnIdleTask"]}
{"id": "C37", "title": "Each io_uring completion runs exactly the callback registered with its submission", "statement": "The submission returned by GetSubmitEntry(cb) carries a user-data tag that is not used by any other in-flight submission, and its completion invokes cb (once for a one-shot, once per event for multishot) even if the table was regrown in between.", "quantifier": "every history of submissions and completions, including callbacks that submit", "why_tests_cant": "Slot reuse and regrow depend on the number of operations in flight.", "anchors": ["util/fibers/uring_proactor.cc: GetSubmitEntry, ProcessCqeBatch, RegrowCentries"]}
{"id": "C38", "title": "Direct-fd table: live fixed fds are distinct and translate back", "statement": "RegisterFd returns a slot not in use; TranslateDirectFd / UnregisterFd return the linux fd registered there; RegisterFd fails only when the table is full or the kernel call fails, and a failed registration leaves no slot occupied.", "quantifier": "every history of register/unregister and kernel failures", "why_tests_cant": "Depends on history and on injected failures.", "anchors": ["util/fibers/uring_proactor.cc: RegisterFd, TranslateDirectFd, UnregisterFd"]}
{"id": "C39", "title": "Epoll callbacks only receive their own events", "statement": "An event reported by the kernel for an armed descriptor is dispatched to the callback that was armed for that descriptor, never to a callback armed later.", "quantifier": "every history of arm/disarm/dispatch, including disarm+arm inside a callback of the same batch", "why_tests_cant": "Needs slot reuse within one event batch.", "anchors": ["util/fibers/epoll_proactor.cc: Arm, Disarm, DispatchCompletions"]}
{"id": "C40", "title": "Fiber::Join never misses the termination", "statement": "A fiber that calls Join on another fiber resumes only after that fiber terminated and is never left suspended once it has terminated.", "quantifier": "every interleaving of any number of joiners with the terminating fiber", "why_tests_cant": "Needs adversarial schedules.", "anchors": ["util/fibers/detail/fiber_interface.cc: FiberInterface::Join, FiberInterface::Terminate"]}
{"id": "C41", "title": "AdvanceIovec drops exactly the given number of bytes", "statement": "After AdvanceIovec(v, n) with n <= total, the bytes described by v are the original bytes without their first n; with n > total the process aborts.", "quantifier": "all iovec arrays (including zero-length entries) and all n", "why_tests_cant": "Unbounded inputs.", "anchors": ["util/tls/iovec_utils.cc: AdvanceIovec, IsEmptyIovec, GetIovecTotalBytes"]}
{"id": "C42", "title": "The RESP parser writes only inside its buffers and parses independently of chunking", "statement": "For any way a byte stream is cut in chunks, RespParser writes only into memory it owns and produces the same commands as when parsing the whole stream at once.", "quantifier": "all byte streams and all chunkings", "why_tests_cant": "Only particular chunk sizes expose a defect.", "anchors": ["examples/pingserver/resp_parser.cc: RespParser::Parse, ConsumeBulk, CacheState"]}
{"id": "C43", "title": "string_view_sso preserves content", "statement": "A string_view_sso always reads back as the string it was built from, through construction, copy, assignment and comparison, regardless of length around the inline capacity.", "quantifier": "all byte strings", "why_tests_cant": "Boundary lengths and unbounded contents.", "anchors": ["base/string_view_sso.h: string_view_sso"]}
{"id": "C44", "title": "Human readable byte sizes parse to the denoted value", "statement": "ParseHumanReadableBytes accepts exactly [-]number with optional K/M/G/T/P suffix (optionally followed by B), scales by powers of 1024, and rejects values that do not fit in int64.", "quantifier": "all strings", "why_tests_cant": "Unbounded inputs and overflow boundary.", "anchors": ["strings/human_readable.cc: ParseHumanReadableBytes"]}
{"id": "C45", "title": "Zstd source delivers the entire decoded stream", "statement": "Reading a ZStdSource until it returns 0 yields every byte the decoder can produce from the upstream content.", "quantifier": "all decoder behaviours that respect the zstd streaming contract and all read sizes", "why_tests_cant": "Needs output-buffer-full coincidences at the end of the input.", "anchors": ["io/zstd_sinksource.cc: ZStdSource::ReadSome"]}
{"id": "C46", "title": "FiberQueue executes every accepted task exactly once in FIFO order", "statement": "Each callback accepted by TryAdd/Add runs exactly once, in acceptance order (for one producer), before Run returns after Shutdown; blocked producers are released when space appears.", "quantifier": "every interleaving of any number of producers with the consumer, every queue size", "why_tests_cant": "Needs adversarial schedules.", "anchors": ["util/fibers/fiberqueue_threadpool.h: FiberQueue", "util/fibers/fiberqueue_threadpool.cc: FiberQueue::Run, FiberQueue::Shutdown"]}
{"id": "C47", "title": "Listener: traversal and migration of connections exclude each other; the client limit holds", "statement": "While a TraverseConnections callback is running in any thread no connection is being relinked by Migrate, and the number of connections being served never exceeds max_clients.", "quantifier": "every interleaving of any number of traversals, migrations, accepts and closes", "why_tests_cant": "Needs adversarial schedules.", "anchors": ["util/fibers/listener_interface.cc: TraverseConnectionsOnThread, Migrate, RunAcceptLoop, RunSingleConnection"]}
{"id": "C48", "title": "Query strings split losslessly", "statement": "ParseQuery/SplitQuery split a URL at the first '?', then at every '&' and the first '=' of each piece, so that re-joining the pieces gives back the input.", "quantifier": "all strings", "why_tests_cant": "Unbounded inputs.", "anchors": ["util/http/http_common.cc: ParseQuery, SplitQuery"]}
{"id": "C49", "title": "CondVar loses no notify_all", "statement": "A fiber suspended in CondVar::wait(lock, pred) whose predicate has been made true by a fiber that holds the mutex is not left suspended: until it is woken, the fiber that made the predicate true still has its notify_all() call ahead of it.", "quantifier": "every client program that changes the shared data under the mutex, every number of fibers, every interleaving", "why_tests_cant": "A lost wake-up shows only in rare interleavings.", "anchors": ["util/fibers/synchronization.h: CondVarAny::wait, CondVarAny::notify_all, CondVar", "util/fibers/detail/wait_queue.cc: WaitQueue::NotifyAll"]}
{"id": "C50", "title": "Barrier::Cancel releases everybody", "statement": "After Barrier::Cancel() no fiber stays suspended in Barrier::Wait(), and Cancel() may run concurrently with Wait().", "quantifier": "every number of participants, every interleaving of Wait and Cancel calls", "why_tests_cant": "The failure needs Cancel() to fall between the arrivals of a round.", "anchors": ["util/fibers/synchronization.cc: Barrier::Cancel, Barrier::Wait"]}
{"id": "C51", "title": "Periodic tasks: no run after CancelPeriodic, no leak, no interference", "statement": "A task added with AddPeriodic runs only until CancelPeriodic is called for it, whatever is in flight at that moment; its record is deleted exactly once, after the last completion that refers to it; CancelPeriodic returns; and a task that is not cancelled keeps its timer, whatever other tasks are added and cancelled.", "quantifier": "every interleaving of adding, cancelling, timers going off and completions being processed, every number of tasks", "why_tests_cant": "Needs a timer to go off between the cancellation and its submission, and user_data values to be reused.", "anchors": ["util/fibers/proactor_base.cc: AddPeriodic, CancelPeriodic", "util/fibers/uring_proactor.cc: SchedulePeriodic, PeriodicCb, CancelPeriodicInternal, ReapCompletions"]}
{"id": "C52", "title": "TraverseConnections visits every connection once", "statement": "A connection that is open from the start of a TraverseConnections call to its end is passed to the callback exactly once.", "quantifier": "every interleaving of the call's per-thread traversals with accepts, closes and migrations, every number of threads and connections", "why_tests_cant": "Needs a migration between the traversals of two threads.", "anchors": ["util/listener_interface.h: TraverseConnections", "util/fibers/listener_interface.cc: TraverseConnections, TraverseConnectionsOnThread, Migrate"]}
{"id": "C53", "title": "A memory-size flag that is printed and parsed again keeps its value", "statement": "AbslUnparseFlag of a memory-size flag yields text that AbslParseFlag reads back as the same value, for every value; HumanReadableNumBytes and ParseHumanReadableBytes are inverse to each other in the same sense for negative sizes.", "quantifier": "all sizes representable in 64 bits", "why_tests_cant": "Rounding and the limits of int64 and double matter at particular values out of 2^64.", "anchors": ["strings/human_readable.cc: HumanReadableNumBytes", "strings/human_readable.cc: ParseHumanReadableBytes", "strings/human_readable.cc: AbslUnparseFlag"]}
{"id": "C54", "title": "Compact() keeps the map", "statement": "CuckooMap::Compact(ratio) returns without aborting, and afterwards the map holds the same keys with the same values and size() is their number, whatever it returned; if it returned true for a table of 128 buckets or more, the table has one of the sizes tried. It returns false only if the keys do not fit.", "quantifier": "all histories of Insert, Reserve, Clear and Compact, all keys and values, all numbers of buckets tried", "why_tests_cant": "Whether keys fit depends on which of them share buckets for each prime tried; the search goes over exponentially many displacement paths and the cases in which it backtracks, or fails ten times, are rare for random keys.", "anchors": ["base/cuckoo_map.cc: CuckooMapTable::Compact", "base/cuckoo_map.cc: CuckooMapTable::InsertProblematicKeys", "base/cuckoo_map.cc: CuckooMapTable::ShiftExhaustive", "base/cuckoo_map.cc: CuckooMapTable::Explore"]}
{"id": "C55", "title": "Cloud files (S3, Azure, GCS) store what was written", "statement": "If every WriteSome/Write and then Close of a file opened with the OpenWriteFile functions of util/cloud return success, the object in the storage service is exactly the concatenation of the buffers passed, in order, and every WriteSome returned its number of bytes. If writes have failed and Close still returns success, the object has all bytes of the successful writes and a prefix of each failed one. No call aborts or runs for ever for a valid part size; every part but the last has the part size.", "quantifier": "all sequences of (vectored) writes, all part sizes, all failures of the network (request lost, response lost) at any request", "why_tests_cant": "The part boundaries fall anywhere in the data, and failures may hit any request with or without taking effect; the tests need a real service.", "anchors": ["util/cloud/utils.cc: AbstractStorageFile::WriteSome, FillBuf", "util/cloud/aws/s3_storage.cc: WriteFile", "util/cloud/azure/storage.cc: WriteFile", "util/cloud/gcp/gcs_file.cc: GcsWriteFile"]}
{"id": "C56", "title": "S3WriteFile stores what was written", "statement": "If Close returns success, the object is made of all bytes of the writes that returned success and of a prefix of each write that returned an error, in order; the calls terminate; every part but the last has the part size.", "quantifier": "all sequences of vectored writes, all part sizes, all failures of the requests (with or without effect)", "why_tests_cant": "Unbounded sequences of writes and failures at any part boundary.", "anchors": ["util/aws/s3_write_file.cc: S3WriteFile::WriteSome, Flush, Close"]}
{"id": "C57", "title": "The answer is that to the request", "statement": "When RobustSender::Send returns success, the response parser in its result holds the header of the server's answer to the request that was passed, never that to another caller's request and never bytes of another body, although connections are shared through a ClientPool.", "quantifier": "all interleavings of any number of callers on one pool, all answers, bodies and errors, all moments at which the server closes connections, all retry counts of the pool", "why_tests_cant": "Which bytes are left on a reused connection depends on what earlier users of it did and on the errors they met.", "anchors": ["util/cloud/utils.cc: RobustSender::Send, SenderResult::~SenderResult", "util/http/http_client.h: Client::Send, ReadHeader, Recv, HandleError", "util/http/https_client_pool.cc: GetHandle, HandleGuard::operator()", "util/cloud/gcp/gcs_file.cc: GcsReadFile::~GcsReadFile"]}
{"id": "C58", "title": "RobustSender::Send retries as documented", "statement": "Send(n, req) returns success only with an answer 200, 201, 206 or 308, otherwise the error of the last attempt or an unrecoverable one, and then no answer was a success. The server gets the request at most n times; it is not repeated after an answer that settles the matter (success, not found, forbidden, redirect), and after a request for credentials only with a renewed token. If network and server work, Send succeeds.", "quantifier": "all n, all sequences of answers and errors, all histories of the pool", "why_tests_cant": "The combinations of closed connections, answers and refreshes over the attempts, together with the state of the pool, are unbounded.", "anchors": ["util/cloud/utils.cc: RobustSender::Send, IsUnauthorized, DoesServerPushback, IsResponseOK", "util/cloud/utils.h: RobustSender, CredentialsProvider"]}
{"id": "C59", "title": "The connection pool neither shares nor leaks connections", "statement": "A connection handed out by ClientPool::GetHandle belongs to one owner until its handle is destroyed; idle connections are connected; handles_count() is the number of clients that exist, which are the idle ones and those that somebody holds; no CHECK of the pool fails.", "quantifier": "all histories of callers, connection failures, shutdowns and server closes", "why_tests_cant": "The accounting has to hold after every sequence of error paths.", "anchors": ["util/http/https_client_pool.cc: GetHandle, HandleGuard::operator()", "util/http/https_client_pool.h: handles_count"]}
{"id": "C60", "title": "S3ReadFile reads the object sequentially, chunk by chunk", "statement": "Reads of an S3ReadFile yield the bytes of the object in order: each yields as many bytes as its buffers hold, or what is left, whatever the chunk size is; at the end it yields 0. A failed read loses nothing that a later one then skips. Size() is the size of the object once something was read. A read needs no more requests than the object has chunks.", "quantifier": "all objects, chunk sizes, sequences of reads with any buffers, and outcomes of the range requests", "why_tests_cant": "Chunk ends fall anywhere relative to the buffers, and requests may fail at any chunk.", "anchors": ["util/aws/s3_read_file.cc: S3ReadFile::Read, DownloadChunk"]}
{"id": "C61", "title": "Streaming cloud reads deliver a prefix of the object, and a short read means the end", "statement": "For the ReadFile classes of S3, Azure and GCS: successful reads yield the bytes of the object in order until one fails, and after a failed receive all reads fail; a read that yields fewer bytes than asked for has reached the end of the object; Size() is right after a successful read; no CHECK fails whatever the service answers.", "quantifier": "all objects, sequences of reads with any buffers, failed requests, missing lengths and connections broken at any byte", "why_tests_cant": "A connection can break after any byte, in any buffer of any read.", "anchors": ["util/cloud/aws/s3_storage.cc: ReadFile", "util/cloud/azure/storage.cc: ReadFile", "util/cloud/gcp/gcs_file.cc: GcsReadFile::Read"]}
{"id": "C62", "title": "TLS: the peer decrypts exactly what was written", "statement": "The application bytes a TLS socket puts on the wire are always a prefix of the bytes passed to WriteSome and TrySend in order, never duplicated, reordered or interleaved with another fiber's flush; the calls' reported lengths sum to what the engine has taken; and after a complete write, with no failure and no flush in progress, every reported byte has left. Empty buffers and a shorter retry after EAGAIN are harmless.", "quantifier": "every stream, every split into buffers, every sequence of WriteSome/TrySend calls of one fiber and RecvMsg/TryRecv calls of another, every decision of the TLS engine (partial accepts, WANT_READ, WANT_WRITE, protocol records), every partial write or failure of the upstream socket and every interleaving", "why_tests_cant": "The order of flushes depends on the interleaving of two fibers and a background write with arbitrary partial writes and engine decisions; OpenSSL cannot be driven through all of them.", "anchors": ["util/tls/tls_socket.cc: WriteSome, TrySend, PushUserDataToEngine, MaybeSendEngineOutput, HandleUpstreamWrite", "util/tls/tls_engine.cc: Write", "util/tls/tls_socket_async.cc: StartAsyncWrite, AsyncProgressCb"]}
{"id": "C63", "title": "TLS: reads return exactly what the peer sent, and truncation is not an end", "statement": "The bytes returned by RecvMsg and TryRecv, in order, are the bytes the peer encrypted, without loss, duplication or reordering, and none after its close_notify. A read reports the end of the stream (0 bytes) only if the peer sent close_notify and everything before it was returned. Every read returns.", "quantifier": "every received sequence of records, every fragmentation by the network, every sequence of reads and buffer sizes, concurrent writes, every engine decision and interleaving", "why_tests_cant": "Fragmentation, truncation points and the interleaving with writes (which may themselves read from upstream) are unbounded.", "anchors": ["util/tls/tls_socket.cc: RecvMsg, TryRecv, HandleUpstreamRead, HandleEngineOp", "util/tls/tls_engine.cc: Read"]}
{"id": "C64", "title": "TLS: a reader and a writer do not corrupt or block each other", "statement": "With one fiber reading and one writing (WriteSome/TrySend, RecvMsg/TryRecv) no internal check fails: at most one upstream write and one upstream read are in progress and a flush consumes only what it has sent. A fiber that waits always waits for another that is inside the upstream socket. TryRecv reports EAGAIN only if the network has nothing or if a background flush is running, at whose end the receive callback is called.", "quantifier": "every schedule of the two fibers and of the background write, every engine decision, every behaviour of the upstream socket", "why_tests_cant": "A lost wake-up or a double upstream write needs a particular interleaving with particular engine output.", "anchors": ["util/tls/tls_socket.cc: MaybeSendEngineOutput, HandleUpstreamWrite, HandleUpstreamRead, TryRecv, StartAsyncWriteForTryRecv", "util/tls/tls_socket.h: state flags", "util/tls/tls_socket_async.cc: CompleteAsyncReq"]}
{"id": "C65", "title": "TLS callback API: streams are exact and every callback comes", "statement": "With AsyncWriteSome and AsyncReadSome on a TLS socket (at most one of each outstanding): the application bytes sent upstream are a prefix of the bytes given to the writes, of the length the write callbacks report once they are called; the bytes the read callbacks get are, in order, the bytes the peer sent, and 0 is reported only for the peer's close_notify after all bytes. No internal check fails, and a request whose callback was not called is in an upstream operation or waits for the other request, which is, and is resumed when that ends.", "quantifier": "every sequence of calls, every order of completions of upstream reads and writes, every engine decision (partial writes, WANT_READ, WANT_WRITE, protocol output, errors), every behaviour of the upstream socket", "why_tests_cant": "The two requests interfere only if one needs the upstream direction that the other is using, which depends on the protocol (key updates, renegotiation) and on the order of completions.", "anchors": ["util/tls/tls_socket_async.cc: AsyncReadSome, AsyncWriteSome, HandleOpAsync, AsyncRoleBasedAction, StartUpstreamWrite, StartUpstreamRead, AsyncWriteProgressCb, AsyncReadProgressCb, RunPending, CompleteAsyncReq", "util/tls/tls_async_req.h: TlsAsyncReq", "util/tls/tls_async_io.h: TlsAsyncIo"]}
{"id": "C66", "title": "Epoll sockets: a blocked call is always woken", "statement": "With the epoll proactor, whenever a fiber is blocked in Recv, Accept or WriteSome, or an AsyncWriteSome waits, and the socket is ready for it, the proactor has an event for the socket whose handling makes the call return (or calls the callback). Shutdown wakes every blocked call, and afterwards no call blocks. The timer of a blocked call ends it with operation_canceled, and a call never ends so unless a timeout was set. No internal check fails as long as the contract is kept (one reader and one writer at a time, the recv hook not mixed with reading calls, Shutdown before Close while calls are blocked).", "quantifier": "for every sequence of calls that keeps the contract, every order of kernel events (data, end, reset, space), spurious wake-ups, timers and fiber switches, every amount that the kernel transfers, and any number of fibers", "why_tests_cant": "A lost wake-up needs one of many orders of events, edge-triggered notifications and switches; a test sees a few of them.", "anchors": ["util/fibers/epoll_socket.cc: EpollSocket::Recv, WriteSome, Accept, AsyncWriteSome, PendingReq::Suspend, PendingReq::Activate, HandleAsyncRequest, Wakey, Shutdown, Close", "util/fibers/fiber_socket_base.cc: LinuxSocketBase::Shutdown, TrySend, TryRecv"]}
{"id": "C67", "title": "Epoll sockets: bytes and results", "statement": "Reads return, in order and without loss or repetition, the bytes that arrived; writes send exactly what they report. Recv returns at most what was asked for, and 0 only at the end of the stream or after a local Shutdown; a write reports between 1 and all bytes; each error has its cause (timeout, reset, shutdown). Data that arrived before an error or before the local side stopped sending can still be read by the next Recv.", "quantifier": "for every sequence of calls that keeps the contract, every order of kernel events and switches, and every amount that the kernel transfers", "why_tests_cant": "Partial transfers, retries after EAGAIN and errors can meet at every byte and in every order.", "anchors": ["util/fibers/epoll_socket.cc: EpollSocket::Recv, WriteSome, Accept, AsyncWriteSome, AsyncReq::Run, HandleAsyncRequest", "util/fibers/fiber_socket_base.cc: TrySend, TryRecv", "util/fiber_socket_base.h: FiberSocketBase::Shutdown, Recv"]}
{"id": "C68", "title": "Epoll sockets: callbacks", "statement": "The callback of AsyncWriteSome is called exactly once, at the latest by Close. A recv hook registered with RegisterOnRecv is told of input that can be read, whether it arrived before or after the registration. An error callback registered with RegisterOnErrorCb is called when the connection ends or is reset, at most once per registration.", "quantifier": "for every sequence of calls that keeps the contract and every order of kernel events, callbacks and switches", "why_tests_cant": "Notifications are edge-triggered: whether one is missed depends on the order of registration, events and other calls.", "anchors": ["util/fibers/epoll_socket.cc: EpollSocket::AsyncWriteSome, RegisterOnRecv, ResetOnRecvHook, RegisterOnErrorCb, CancelOnErrorCb, HandleAsyncRequest, Wakey, Close"]}
{"id": "C69", "title": "io_uring: EpollAdd and EpollDel", "statement": "A descriptor watched with EpollAdd stays watched until EpollDel, also when the kernel ends a multishot request. After EpollDel has returned, the callback is not called again; the entry is deleted exactly once and never used afterwards.", "quantifier": "for every sequence of events, ended multishots and answers to the removal, and every order of completions", "why_tests_cant": "The removal races with completions that are already on their way; which of them the kernel has posted cannot be controlled by a test.", "anchors": ["util/fibers/uring_proactor.cc: UringProactor::EpollAdd, RearmEpoll, EpollDel", "util/fibers/uring_socket.cc: UringSocket::RegisterOnRecv, ResetOnRecvHook"]}
{"id": "C70", "title": "io_uring: multishot receives from buffer rings", "statement": "A recv hook that is registered with multishot receives gets exactly the bytes received for its socket, in order, through buffers that the kernel does not reuse before the hook has returned; proactor and kernel agree on buffer ids and offsets; no buffer is lost; an error is reported with its code; a burst of input does no harm; after ResetOnRecvHook the hook is not called.", "quantifier": "for every ring size, entry size and mode (incremental or not, bundles or not), every number of sockets sharing the ring, all sizes of receives, every interleaving of kernel and proactor, without bound on the history (16-bit counters wrap)", "why_tests_cant": "The agreement depends on how received bytes fall on buffer boundaries and on when the kernel reuses buffers; wrap-around takes 65536 buffers.", "anchors": ["util/fibers/uring_proactor.cc: BufRingGroup, RegisterBufferRing, BufRingGetBufPtr, BufRingTrackRecvCompletion", "util/fibers/uring_socket.cc: UringSocket::RegisterOnRecv, ResetOnRecvHook"]}
{"id": "C71", "title": "The error callback of an io_uring socket is called once, never after it was cancelled, and its cancellation harms no other request", "statement": "Between RegisterOnErrorCb and CancelOnErrorCb an error or hang-up of an io_uring socket calls the callback exactly once; once CancelOnErrorCb or Close has been called it is never called again, even when the completion was already under way. The removal request sent by CancelOnErrorCb never removes another operation of the same proactor, although request ids are reused as soon as a completion has been handled. No bookkeeping object is used after it was freed, and none is left behind once everything has completed.", "quantifier": "every sequence of registrations, cancellations and closes of a socket (each registration cancelled before the next), interleaved with every order of other requests, submissions, kernel events and completions", "why_tests_cant": "the hazards are races between a completion that is already queued, the cancellation and the reuse of its id by an unrelated request; a test would have to force each interleaving of the kernel and the proactor", "anchors": ["util/fibers/uring_socket.cc: RegisterOnErrorCb, CancelOnErrorCb, Close", "util/fibers/uring_socket.h: ErrorCbRefWrapper", "util/fibers/uring_proactor.cc: ProcessCqeBatch"]}
{"id": "C72", "title": "RWSpinLock excludes, and keeps what its holders saw", "statement": "At any time a writer is alone, and there is at most one upgradable reader besides plain readers. What a holder saw when it acquired the lock stays so until it lets go, also when an upgradable lock is promoted to a write lock or a write lock is turned into an upgradable or read lock. While there is an upgradable reader no new reader gets in. An attempt fails only if another thread is in the way, and failed attempts leave no trace: when nobody uses the lock it can be taken again.", "quantifier": "every number of threads below 2^29 and every interleaving of the atomic operations of lock, try_lock, unlock, their shared and upgrade variants and all conversions", "why_tests_cant": "the failure needs a particular interleaving of atomic operations of several threads (for instance an attempt to upgrade during a write)", "anchors": ["base/RWSpinLock.h: RWSpinLock"]}
{"id": "C73", "title": "ProactorPool::AwaitBrief and AwaitFiberOnAll run a function on every proactor", "statement": "When AwaitBrief or AwaitFiberOnAll returns, the function has run on every proactor of the pool exactly once and to its end, and it does not run again. Each proactor runs tasks in the order they were queued and loses none. A caller that finds a task queue full is woken when there is room again. Once no new calls are made, every call returns, provided that the functions do.", "quantifier": "every pool size, every capacity of the task queues, any number of concurrent calls, every interleaving of callers, proactor loops and fibers", "why_tests_cant": "full queues, wake-ups that race with the end of a batch, and returning too early show only under particular interleavings of many threads", "anchors": ["util/proactor_pool.h: DispatchBrief, AwaitBrief, DispatchOnAll, AwaitFiberOnAll", "util/fibers/proactor_base.h: DispatchBrief", "util/fibers/epoll_proactor.cc: MainLoop", "util/fibers/uring_proactor.cc: MainLoop"]}
{"id": "C74", "title": "ProactorPool::GetString interns strings", "statement": "GetString returns a view with the content of its argument that stays valid and unchanged. In all threads and at all times, two results for non-empty strings are the same memory exactly if the arguments were equal; only an empty argument is handed back as it is; each different non-empty string is allocated once. The set is never changed while another thread uses it.", "quantifier": "any number of threads and calls, all strings, every interleaving", "why_tests_cant": "the race of two threads that look for the same new string at the same time", "anchors": ["util/fibers/proactor_pool.cc: ProactorPool::GetString", "util/proactor_pool.h"]}
{"id": "C75", "title": "Files of OpenFiberReadFile: reads with prefetching", "statement": "Every Read at any offset returns: either an error, or bytes of the file from that offset on, as many as were asked for unless the file ends, and no bytes only at its end. The prefetching in the thread pool never writes where the reader reads, nor outside its buffer, and does not use the file once Close has returned.", "quantifier": "every file, every size of the prefetch buffer, every sequence of reads, every timing and result of the prefetches", "why_tests_cant": "which bytes come from the cache, from a prefetch in progress or from disk depends on the history and on when the pool runs its tasks; failing prefetches are not provoked by tests", "anchors": ["util/fibers/fiber_file.cc: FiberReadFile, ReadAndPrefetch, ReadFromCache, HandleActivePrefetch, Close", "util/fibers/fiber_file.h: OpenFiberReadFile", "io/file.h: ReadonlyFile::Read"]}
{"id": "C76", "title": "DnsResolve reports the result and leaves nothing behind", "statement": "DnsResolve returns an error if the host has no address and otherwise fills dest_ip; neither variant touches memory of the call after it has returned. While c-ares has a socket open, the proactor watches it for what c-ares asked for, once; when DnsResolve returns, nothing is watched on its behalf, and nobody else's callbacks were removed.", "quantifier": "every interleaving of the c-ares thread with the caller; every sequence of socket updates by c-ares, inside and outside of the loop over the sockets", "why_tests_cant": "the caller's thread must overtake the c-ares thread between two instructions; retries that open sockets in the loop need failing name servers", "anchors": ["util/fibers/dns_resolve.cc: DnsResolve, DnsResolveCallback, UpdateSocketsCallback, ProcessChannel", "util/fibers/dns_resolve.h"]}
{"id": "C77", "title": "Listing objects in cloud storage", "statement": "Listing a bucket (GCS, S3, Azure) asks the server for exactly the prefix and the continuation token that were given, whatever bytes they contain, and for nothing else. Looping until the token comes back empty, as the headers say and as GCS::List does, calls the callback with every object and prefix of every page, once and in the server's order, and returns success exactly when all pages were got; an error is returned exactly when some page could not be got, after the pages before it. The same holds of listing buckets or containers.", "quantifier": "all prefixes, tokens, page limits, and all servers: any number of pages, empty pages, failures at any page", "why_tests_cant": "The number and the shape of pages and the bytes in keys and tokens are the server's choice; real servers send empty pages with a next token only rarely.", "anchors": ["util/cloud/gcp/gcs.cc: GCS::List, GCS::ListBuckets", "util/cloud/aws/s3_storage.cc: S3Storage::List, ParseXmlListObjects, BucketQueryPath", "util/cloud/azure/storage.cc: Storage::List, Storage::ListContainers, ParseXmlListBlobs"]}
{"id": "C78", "title": "Division by multiplication, and the bucket of a key", "statement": "For every divisor other than 0 and every number, dividing through a precomputed divider (32 and 64 bits, the one function or the algorithm chosen by get_algorithm, with or without 128-bit integers, with the instruction or the portable wide division) gives the quotient of the division. CuckooMap puts a key into the bucket that is the remainder of its hash, so always inside the table, for every number of buckets it can have. GetPrimeNotLessThan returns the least prime that is not less than its argument.", "quantifier": "all divisors, all numerators, all hashes, all numbers of buckets, all arguments", "why_tests_cant": "There are 2^128 pairs; the rare divisors and numerators at which a reciprocal is off by one are not found by sampling.", "anchors": ["base/libdivide.h: libdivide_u64_gen, libdivide_u64_do, libdivide_u64_do_alg0/1/2, libdivide_u32_*, libdivide__mullhi_u64, libdivide_128_div_64_to_64", "base/cuckoo_map-internal.h: FromHash, BucketFromId", "base/cuckoo_map.cc: IsPrime, GetPrimeNotLessThan, SetBucketCount, Reserve"]}
{"id": "C79", "title": "io_uring sockets: bytes, results, descriptors and Shutdown", "statement": "For an io_uring socket used by the rules (opened once at a time; calls on an open socket; not closed, detached or destroyed while a call waits): the bytes sent on a connection are exactly those the results of its writes report, in order, and the bytes received are exactly those its reads return followed by those still waiting; every call gets exactly one result or callback and none is forgotten; blocking calls never fail with EAGAIN; every descriptor belongs to one socket, Close closes that one and no other, and nothing leaks; an accepted socket is not shut down and inherits only the Unix-socket flag. After Shutdown every read and write fails at once without touching the connection, until the socket is opened again.", "quantifier": "all interleavings of calls on any number of sockets with submissions, completions, results and errors of the kernel, arriving data, and descriptors opened and closed by other code; all descriptors below 2^27", "why_tests_cant": "The order of submission, completion, close and reuse of a descriptor number is the kernel's and the scheduler's; a test sees one of them, and EAGAIN from an overflowing completion queue hardly ever.", "anchors": ["util/fibers/uring_socket.cc: UringSocket::Create, Close, Accept, Connect, WriteSome, AsyncWriteSome, AsyncReadSome, RecvMsg, Recv", "util/fibers/fiber_socket_base.cc: LinuxSocketBase::Create, Bind, Listen, Shutdown, TrySend, TryRecv, ~LinuxSocketBase", "util/fiber_socket_base.h: LinuxSocketBase, kFdShift, ShiftedFd"]}
{"id": "C80", "title": "io_uring files: what reads and writes move, and which file they act on", "statement": "Reading a file opened for reading on io_uring fills the buffers, one after the other, with the bytes of the file from the given offset on, up to the end of the file, returns how many, and writes nowhere else. LinuxFile::Write puts all the data at the offset and changes nothing else, or reports an error after a beginning of it; LinuxFile::Read and ReadFixed fill the buffers or report an error, and both return. Every operation acts on the file that was opened, whether or not it is registered with the ring, and Close closes exactly its descriptor, once.", "quantifier": "all file contents, offsets, lists of buffers (also empty ones), and all sequences of kernel answers: any short counts, errors at any point, end of file; all descriptors and slots of the ring's table", "why_tests_cant": "Regular files give short counts so rarely that tests do not see the loops that deal with them; the end of a file in the middle of a buffer and a registered file whose slot is also a descriptor number are further combinations.", "anchors": ["util/fibers/uring_file.cc: CloseFile, ReadAll, ReadFileImpl::Read, ReadSomeInternal, WriteSomeInternal, LinuxFile::LinuxFile, LinuxFile::Close, LinuxFile::Read, LinuxFile::Write, LinuxFile::ReadFixed, LinuxFile::FSync", "io/io.h: ApplyExactly"]}
{"id": "C81", "title": "Signed S3 requests: the service computes the same signature, for the object that was named", "statement": "Every request that AwsCredsProvider signs is accepted by S3: the Authorization header is the one that AWS Signature Version 4 prescribes for the method, target and headers that are sent, with the host and all x-amz headers signed; a session token is sent and signed with it, nothing else of the request is changed, and signing again after a refresh gives a valid request. The target built for an object names exactly that object.", "quantifier": "all credentials, regions, times, methods, targets (paths, queries) and header lists, all keys and buckets; for any functions in place of SHA-256 and HMAC", "why_tests_cant": "Tests compare a few known signatures; sorting, encoding and trimming rules only matter for particular characters in keys, prefixes and values, of which there are infinitely many combinations.", "anchors": ["util/cloud/aws/aws_creds_provider.cc: Sign, CanonicalUri, CanonicalQueryString, HexEncode", "strings/escaping.cc: AppendUrlEncoded", "util/cloud/aws/s3_storage.cc: BucketObjectPath", "util/cloud/utils.h: HttpRequestBase::SetHeader"]}
{"id": "C82", "title": "AWS credentials are refreshed one at a time, whole, and reports of it are true", "statement": "For every interleaving of RefreshToken, RefreshIfExpiring and Sign by any number of fibers and threads: at most one request for new credentials is outstanding; it goes to the source the first credentials came from; every signature uses one complete set of credentials, the newest received; a failed refresh changes nothing. RefreshIfExpiring returns false only if the credentials do not expire within 30 seconds, and true only if its own request brought new ones; RefreshToken succeeds only if the credentials were replaced during the call; an error is the one that was met, or a timeout after at least 30 seconds of waiting. Nobody waits longer than that for another's refresh, and once all calls have returned the next one gets through.", "quantifier": "all interleavings of all numbers of fibers, all answers of the credential services, all first credentials and sources, all movements of both clocks", "why_tests_cant": "The races (flag seen set, refresh ends, check and claim not atomic) need particular interleavings with expiring credentials and a failing service.", "anchors": ["util/cloud/aws/aws_creds_provider.cc: RefreshToken, RefreshTokenImpl, RefreshIfExpiring, Sign", "util/cloud/aws/aws_creds_provider.h: AwsCredentials::IsExpiring"]}
{"id": "C83", "title": "Configuration of the S3 client means what the documentation says", "statement": "Init takes the credentials from the first source that offers any, in the documented order environment, profile file, web identity, container, instance metadata, exactly as that source offers them, and fails only if none does; no answer of a service is undefined behaviour. The entries of a section of an INI file are reported in order, exactly. URLs are split into host, port, path and TLS as written; the endpoint made of one stands for the same host and port. Region and endpoint follow the documented order of argument, environment, file and default.", "quantifier": "all environments, file contents, answers of services, texts, section names and URLs", "why_tests_cant": "Tests try a few files, URLs and environments; mistakes sit in combinations of white space, comments, repeated or empty values, brackets and odd answers.", "anchors": ["util/cloud/aws/aws_creds_provider.cc: Init, TryEnvironment, TryProfileFile, TryWebIdentity, TryContainerCreds, TryIMDS, ParseJsonCredentials, ParseStsXml, ServiceEndpoint, StsEndpoint", "util/cloud/utils.cc: ParseHttpUrl, ParseIniSection"]}
{"id": "C84", "title": "Log files: whole messages, in order, in the logs they belong to, and when they are on disk", "statement": "With the file log sink, each message of a thread is written once, whole and in the thread's order, to the log of its severity and to those of all lower severities, unless that log has reported an error on stderr; after a reported error each file is still a beginning of that text, or starts with it. When the call for a message above --logbuflevel returns, the message is on disk; when Flush returns or the sink is destroyed, everything handed to the logs before is on disk; otherwise a crash loses less than a million bytes per log and no message older than --logbufsecs. Files stay below --max_log_size but for their last message, the link names the newest file, and the directory is the first usable candidate.", "quantifier": "all interleavings of threads calling Send and Flush, all flag values, all message sizes, all answers of fopen, fwrite, fflush, fclose, symlink and the clock", "why_tests_cant": "The claims range over schedules, over failures of every stdio call at every point, and over the moment of a crash", "anchors": ["base/file_log_sink.cc: FileLogSink::Send, Flush, Init, LogFile::Open, WriteAndMaybeFlush, FlushLocked, Close, FindLoggingDir", "base/file_log_sink.h: FileLogSink::LogFile"]}
{"id": "C85", "title": "HTTP listener: who is let in, what is served, and every request once", "statement": "With an authorization function set, no page, flag, file or callback is reached by a request unless that function accepted the request's path and the user name and password of its Authorization header; a refused request only gets a challenge. A request that is let through gets the built-in page of its path or else the callback registered first for it, with the arguments of its query, or a 401. A request changes at most the flag it names, to the value it gives, if the flag accepts it. A file is served only if its name resolves to a path strictly below /tmp/profile, and any such file is served. However the bytes of a connection are split between ParseFromBuffer and the socket, the requests of the whole stream are served once each and in order, and incomplete input over 4096 bytes is reported.", "quantifier": "all request targets and headers, all registrations, all authorization functions, all answers of the file system, all streams and all split points", "why_tests_cant": "Access control and path containment range over all inputs and file system states, and the streaming claim over every split point of every stream", "anchors": ["util/http/http_handler.cc: HttpConnection::ParseFromBuffer, HandleRequests, CheckRequestAuthorization, HandleSingleRequest, HttpListenerBase::HandleRoot, RegisterCb, FilezHandler, ParseFlagz", "util/http/http_handler.h: HttpListenerBase, HttpConnection", "util/http/profilez_handler.cc: ProfilezHandler"]}
{"id": "C86", "title": "Azure credentials: right account, right signature, one source", "statement": "A request signed with an Azure account key carries the Authorization header that the Blob service computes from the request it receives; a SAS token's parameters are appended to the target once, also when the request is signed again; a bearer token goes into the header unchanged. Settings of a connection string are found whatever their case and spacing, the first one winning. Init uses the connection string, else the environment, else the managed identity, takes account, endpoint and secret from that source, and never yields credentials for another account than the one asked for. A failed Init leaves no credentials, and RefreshToken changes only the token. Every container and key denotes one target, from which the service reads exactly that container and key.", "quantifier": "all requests, connection strings, environments, answers of the identity service, containers and keys", "why_tests_cant": "The signature is only right if it is right for every combination of headers and parameters, and the choice of credentials ranges over all environments and malformed settings", "anchors": ["util/cloud/azure/azure.cc: ComputeSignature, ParseConnectionStringKV, ParseEndpointHost, AddSasToTarget, ParseImdsTokenResponse, Credentials::Init, Credentials::Sign, Credentials::RefreshToken", "util/cloud/azure/creds_provider.h: Credentials, AccountInfo", "util/cloud/azure/storage.cc: BuildObjectUrl"]}
{"id": "C87", "title": "AcceptServer: listeners get bound, and stopping one ends all its connections", "statement": "AddListener binds the listener to the first IPv4 address that can be used, else to the first IPv6 one, and otherwise reports an error and adds nothing. When a listener stops, every connection it has accepted, however late, is told to stop; the accept loop, and with it Wait, returns once all of them are over and not before; it waits for nothing else, and no fiber touches a list or listener that is gone. No connection is told to stop while the listener accepts.", "quantifier": "every list of addresses and outcome of the system calls; every number of threads and connections and every interleaving of accepting, closing, migrating and stopping", "why_tests_cant": "Needs a connection accepted, closed or migrated at each point of the shutdown", "anchors": ["util/fibers/accept_server.cc: CreateServerSocket, AcceptServer::AddListener, AcceptServer::AddUDSListener, AcceptServer::Wait", "util/fibers/listener_interface.cc: ListenerInterface::RunAcceptLoop, RunSingleConnection, Migrate, TLConnList"]}
{"id": "C88", "title": "Variables that report themselves list the live ones, once, as text that means their value", "statement": "(a) However variables (VarzListNode and its subclasses) are constructed and destroyed, in any order and at addresses used again, no destroyed variable is touched, and Iterate reports exactly the live variables that have a name, each once, newest first. (b) The text that Format produces for a value, with maps nested to any depth, is JSON and reads back as that value. (c) VarzMapAverage reports, whatever increments run at the same time, every key known when the call starts, exactly once, with a sum and a count that belong together, and is safe to use at the same time as the call.", "quantifier": "all histories of constructions and destructions; all values; all interleavings of increments on all threads with the steps of a GetData call", "why_tests_cant": "The list's links depend on the whole order of construction and destruction; nesting of values is unbounded; GetData blocks on a fiber mutex inside its loop, so its result depends on the schedule.", "anchors": ["base/varz_node.cc:VarzListNode", "base/varz_node.cc:VarzListNode::Iterate", "base/varz_node.cc:VarzListNode::Format", "util/fibers/varz.cc:VarzMapAverage::GetData", "util/varz.h:VarzMapAverage::IncBy"]}
{"id": "C89", "title": "Random generators do not repeat early, do not get stuck, and jump as documented", "statement": "From any seed, SplitMix64 returns each 64-bit number exactly once in any 2^64 calls in a row. Seeding Xoroshiro128p with any number leaves it in a state other than the all-zero one that it could never leave, different seeds give different states, and no mix of calls and jumps leads there. From every other state it comes back after 2^128-1 calls and not before, so it goes through all states. jump() is equivalent to 2^64 calls.", "quantifier": "all seeds; all states; all numbers of calls; all histories of seeding, calling and jumping", "why_tests_cant": "The periods are 2^64 and 2^128-1, and the jump is documented to skip 2^64 calls: no run gets there.", "anchors": ["base/random.h:SplitMix64", "base/random.h:Xoroshiro128p", "base/random.h:Xoroshiro128p::seed", "base/random.h:Xoroshiro128p::jump"]}
{"id": "C90", "title": "MurmurHash3_x86_32 stays in its data and never loses a small change; Fingerprint avoids its reserved values", "statement": "MurmurHash3_x86_32 reads only the bytes it is given, for every length. For the same data, two different seeds always give different hashes. For two inputs of the same length that differ only within one aligned group of four bytes, or only within the last incomplete group, the hashes always differ. Fingerprint never returns 0 or 1.", "quantifier": "all byte strings of every length below 2^32, all seeds, all single-group changes", "why_tests_cant": "It says that no collision of these kinds exists among all inputs, seeds and lengths.", "anchors": ["base/hash.cc:MurmurHash3_x86_32", "base/hash.cc:Fingerprint"]}
