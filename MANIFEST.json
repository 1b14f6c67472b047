{
 "claims": [
  {
   "property": "C01",
   "status": "proved",
   "theorems": [
    "iobuf_fifo",
    "iobuf_ensure_capacity",
    "iobuf_shrink"
   ],
   "note": "IoBuf refines a byte FIFO over all histories; EnsureCapacity and ShrinkIfNeeded keep contents"
  },
  {
   "property": "C02",
   "status": "proved",
   "theorems": [
    "ring_fifo"
   ],
   "note": "All capacities 2^k, k<=31, all histories including counter wrap"
  },
  {
   "property": "C03",
   "status": "proved",
   "theorems": [
    "segpool_disjoint",
    "uring_buffers_disjoint"
   ],
   "note": "No overlap, no UB; also at byte level through UringProactor::RequestBuffer (sizes up to 16TB)"
  },
  {
   "property": "C04",
   "status": "proved",
   "theorems": [
    "segpool_fully_free"
   ],
   "note": ""
  },
  {
   "property": "C05",
   "status": "partial",
   "theorems": [
    "segpool_zero_request_refuted",
    "uring_zero_buffer_refuted",
    "segpool_disjoint"
   ],
   "note": "REFUTED: the code violates it; a legal 8-step history with Request(0) ends with overlapping segments. The guarantee for non-zero requests is segpool_disjoint."
  },
  {
   "property": "C06",
   "status": "partial",
   "theorems": [
    "flit_roundtrip_partial",
    "flit_roundtrip_std",
    "flit_roundtrip_x86_refuted",
    "flit_parse64fast",
    "flit_minimal",
    "flit_fast_encoder",
    "flit_parse_length",
    "flit_length_partial",
    "flit_length_refuted",
    "flit_fast_u32_partial",
    "flit_fast_u32_refuted"
   ],
   "note": "Round trip proved for all values assuming the full-width shift yields 0; by the C++ standard it is UB exactly for 8-byte (u32: 4-byte) encodings, and with x86 shift semantics decodes to 0 (refuted). EncodingLength wrong for v>=2^63 (refuted). Parse64Fast on uint32 encodings wrong from 2^28 (refuted)."
  },
  {
   "property": "C07",
   "status": "partial",
   "theorems": [
    "flit_safe_ub_iff",
    "flit_safe_refuted",
    "flit_safe_roundtrip_partial",
    "flit_safe_truncated_partial"
   ],
   "note": "REFUTED: exact set of UB inputs proved (flit_safe_ub_iff); outside it decoding and rejection are proved."
  },
  {
   "property": "C08",
   "status": "proved",
   "theorems": [
    "zigzag_bijection",
    "zigzag_small"
   ],
   "note": ""
  },
  {
   "property": "C09",
   "status": "proved",
   "theorems": [
    "url_decode_spec",
    "url_encode_spec",
    "url_roundtrip",
    "http_url_roundtrip",
    "url_decode_empty_refuted"
   ],
   "note": "Only degenerate exception: decoding an empty string into an empty string is UB (url_decode_empty_refuted). Inputs below 4 GB."
  },
  {
   "property": "C10",
   "status": "proved",
   "theorems": [
    "sliding_window"
   ],
   "note": ""
  },
  {
   "property": "C11",
   "status": "proved",
   "theorems": [
    "spsc_linearizable",
    "spsc_safe",
    "spsc_no_race",
    "spsc_destroy"
   ],
   "note": "All interface calls, one producer and one consumer, sequentially consistent interleavings; linearizable to a bounded FIFO of size-1 elements, no UB, no slot race, destructor."
  },
  {
   "property": "C12",
   "status": "proved",
   "theorems": [
    "mpmc_safe",
    "mpmc_linearizable",
    "mpmc_enqueue_false",
    "mpmc_dequeue_false",
    "mpmc_no_race",
    "mpmc_empty_full",
    "mpmc_destroy"
   ],
   "note": "Any number of threads, SC interleavings; positions are unbounded naturals. Failing calls: see the two *_false theorems; mpmc_false_full shows try_enqueue may fail while a consumer is releasing."
  },
  {
   "property": "C13",
   "status": "proved",
   "theorems": [
    "mpsc_safe",
    "mpsc_linearizable",
    "mpsc_empty_true",
    "mpsc_pop_quiet"
   ],
   "note": "Any number of producers, one consumer, SC interleavings; nodes may be re-pushed after they are handed back."
  },
  {
   "property": "C14",
   "status": "proved",
   "theorems": [
    "ec_no_lost_wakeup",
    "ec_quiescent",
    "ec_no_lost_wakeup_short",
    "ec_progress",
    "ec_safe",
    "ec_no_lost_wakeup_refuted",
    "ec_notify_one_refuted"
   ],
   "note": "Any condition, any shared state, any number of fibers and schedule. The exception (2^32 notifications inside one window) and the single-waiter restriction of notify() are both necessary: ec_no_lost_wakeup_refuted, ec_notify_one_refuted."
  },
  {
   "property": "C15",
   "status": "proved",
   "theorems": [
    "mutex_exclusion",
    "mutex_safe",
    "mutex_handover",
    "mutex_quiescent",
    "mutex_progress"
   ],
   "note": "Any client code that pairs its calls; sequentially consistent model."
  },
  {
   "property": "C16",
   "status": "proved",
   "theorems": [
    "counter_result",
    "counter_released",
    "counter_safe"
   ],
   "note": "EmbeddedBlockingCounter (also used by BlockingCounter and FiberBlockingCounter); calls that break the documented contract are excluded; timely = C14's exception."
  },
  {
   "property": "C17",
   "status": "partial",
   "theorems": [
    "shared_exclusion",
    "shared_safe",
    "shared_released_refuted",
    "shared_reader_released",
    "shared_released_partial"
   ],
   "note": "Exclusion proved for all schedules. The second half is REFUTED (shared_released_refuted: a failing try_lock_shared() rolls back without notifying). Proved: readers are always released; writers too when try_lock_shared() is not used."
  },
  {
   "property": "C18",
   "status": "proved",
   "theorems": [
    "barrier_rounds",
    "barrier_released",
    "barrier_one_true",
    "barrier_some_true",
    "barrier_safe"
   ],
   "note": "Rounds below 2^64-1, without Cancel() (see C50)."
  },
  {
   "property": "C19",
   "status": "partial",
   "theorems": [
    "done_all_released_refuted",
    "future_getref_released_refuted",
    "done_released_partial",
    "future_released_partial",
    "future_value",
    "future_get_once"
   ],
   "note": "REFUTED as stated: Done::Notify and Future::Resolve wake one fiber (done_all_released_refuted, future_getref_released_refuted). Proved: a single waiting fiber is always released; values are right and Get is exclusive for any number of consumers."
  },
  {
   "property": "C20",
   "status": "partial",
   "theorems": [
    "channel_safe",
    "channel_fifo",
    "channel_closed",
    "channel_close_wakes",
    "channel_pop_wakes_partial",
    "channel_pop_not_stuck_partial",
    "channel_no_deadlock",
    "channel_push_room_refuted",
    "channel_push_pop_refuted",
    "channel_mpmc_pop_refuted"
   ],
   "note": "Safety, FIFO, closing, and no deadlock are proved for any number of producers and consumers with both queues. REFUTED in three ways: a Push can stay suspended with room in the channel because a successful Pop does not notify (channel_push_room_refuted); Push and Pop can both be suspended on an empty channel (channel_push_pop_refuted); with the MPMC queue a Pop can stay suspended with an element in the channel (channel_mpmc_pop_refuted). The _partial theorems show that with the single-step queue no Pop stays suspended while there is an element."
  },
  {
   "property": "C21",
   "status": "proved",
   "theorems": [
    "sink_write_ok",
    "sink_write_error",
    "sink_write_pending",
    "sink_write_progress",
    "sink_write_empty_reports_error",
    "async_write_correct",
    "async_read_correct",
    "async_read_eof_never_completes"
   ],
   "note": "Sink::Write (with WriteSomeBytes and ApplyExactly) over every response sequence of the sink; also AsyncWrite/AsyncRead. An all-empty vector is reported as io_error (sink_write_empty_reports_error)."
  },
  {
   "property": "C22",
   "status": "proved",
   "theorems": [
    "read_at_least_done",
    "read_at_least_other",
    "source_read_full"
   ],
   "note": "ReadAtLeast and Read over every response sequence of the source."
  },
  {
   "property": "C23",
   "status": "proved",
   "theorems": [
    "bytes_source_stream",
    "bytes_source_fits",
    "buf_pipe",
    "string_sink_correct",
    "null_sink_correct",
    "prefix_source_stream",
    "prefix_source_false_eof"
   ],
   "note": "BytesSource, BufSink/BufSource as a pipe, StringSink, NullSink, PrefixSource over an arbitrary upstream. A zero-length first buffer gives a false end-of-stream (prefix_source_false_eof); the interface asks for non-empty buffers."
  },
  {
   "property": "C24",
   "status": "partial",
   "theorems": [
    "linereader_lines_partial",
    "linereader_runs",
    "linereader_short_read_refuted",
    "linereader_crlf_refuted",
    "linereader_error"
   ],
   "note": "REFUTED in full: a short read splits a line and a CR LF straddling two reads leaves the CR (witness theorems). Proved for every read pattern what the lines are, and equality with the lines of the text when reads fill the buffer and no CR LF is split."
  },
  {
   "property": "C25",
   "status": "partial",
   "theorems": [
    "ini_grammar_total",
    "ini_parse_partial",
    "ini_error",
    "ini_header_comment_refuted"
   ],
   "note": "Proved for every text, except that a section header followed by blanks and a comment is not recognised (ini_header_comment_refuted), and up to the read patterns of C24."
  },
  {
   "property": "C26",
   "status": "partial",
   "theorems": [
    "file_read_partial",
    "file_overflow_refuted",
    "file_source_partial",
    "read_file_to_string_partial",
    "read_proc_file_refuted"
   ],
   "note": "REFUTED in full: ReadAll does not decrement its length, so two short preads in a row store behind the buffer (file_overflow_refuted), and ReadFileToString fails on /proc files of 4096 bytes or more (read_proc_file_refuted). Proved for all files, buffers and kernel answers in which no short read directly follows another."
  },
  {
   "property": "C27",
   "status": "partial",
   "theorems": [
    "proc_lines_partial",
    "proc_header_partial",
    "proc_stops",
    "proc_error",
    "proc_blank_line_refuted",
    "proc_last_line_refuted"
   ],
   "note": "REFUTED in full: a line without separator (e.g. blank) stops the reports and an unterminated last line is dropped. Proved for all files whose lines all contain the separator, for every chunking, and what happens otherwise (proc_stops)."
  },
  {
   "property": "C28",
   "status": "partial",
   "theorems": [
    "metrics_calls",
    "metrics_partial",
    "metrics_one_thread_partial",
    "metrics_increments",
    "metrics_lost_refuted",
    "metrics_oob_refuted",
    "metrics_concat_refuted"
   ],
   "note": "REFUTED in general: a thread that meets label sets out of dense-id order has its vector cut (lost increments, then a write past the end), and label sets with the same concatenation share a counter. Proved: with label sets that hash apart and threads meeting labels in dense-id order (always so with one thread) the report is exact, for counters and gauges; every call is counted once."
  },
  {
   "property": "C29",
   "status": "proved",
   "theorems": [
    "hist_count",
    "hist_bucket",
    "hist_falls",
    "hist_total",
    "hist_same",
    "hist_range",
    "hist_sum"
   ],
   "note": "All counts modulo 2^64; sum() is exact only under the bound in hist_sum, since it is rounded."
  },
  {
   "property": "C30",
   "status": "partial",
   "theorems": [
    "hist_percentile_safe",
    "hist_monotone",
    "hist_minmax",
    "hist_percentile_partial",
    "hist_percentiles",
    "hist_within_refuted"
   ],
   "note": "REFUTED for negative samples (hist_within_refuted: max() starts at 0). Proved for samples between 0 and 1e200, up to 2^63 of them (above, num_ * p may not fit in 64 bits). Monotonicity is proved without that restriction, also after Decay."
  },
  {
   "property": "C31",
   "status": "partial",
   "theorems": [
    "pod_vector_partial",
    "pod_size_refuted",
    "pod_fill_refuted",
    "pod_own_refuted",
    "pod_move_refuted",
    "pod_zero_refuted"
   ],
   "note": "REFUTED in general: with sizeof(T) not a power of two push_back writes past the block (pod_size_refuted); resize_fill zeroes bytes, not elements (pod_fill_refuted); push_back(a[i]) when full (pod_own_refuted); move construction across resources (pod_move_refuted); constructing with 0 elements when sizeof(T) > ALIGNMENT (pod_zero_refuted). Proved for sizes that are powers of two without these uses."
  },
  {
   "property": "C32",
   "status": "partial",
   "theorems": [
    "arena_partial",
    "arena_large_refuted",
    "arena_swap_refuted"
   ],
   "note": "REFUTED for sizes of 4GB and more (arena_large_refuted) and for Swap between arenas with different resources (arena_swap_refuted); proved for everything else."
  },
  {
   "property": "C33",
   "status": "partial",
   "theorems": [
    "cuckoo_map",
    "cuckoo_insert",
    "cuckoo_iter",
    "cuckoo_defined",
    "cuckoo_dense_refuted"
   ],
   "note": "CuckooMap as a finite map, for every history of Insert/Reserve/Clear, all displacement choices and all sizes Grow() may choose, up to 2^30 buckets; dense ids are 32-bit beyond that (cuckoo_dense_refuted). Compact() is not in the model."
  },
  {
   "property": "C34",
   "status": "partial",
   "theorems": [
    "sched_safe_partial",
    "sched_once",
    "sched_fifo",
    "sched_bound",
    "sched_woken",
    "sched_remote",
    "sched_front",
    "sched_wait",
    "sched_sleepers",
    "sched_early",
    "sched_timeout_partial",
    "sched_dispatch_refuted",
    "sched_forever_refuted",
    "sched_high_refuted"
   ],
   "note": "Safety and one place per fiber: sched_safe_partial, provided Launch::dispatch is used only between fibers that share a ready queue; exactly once, FIFO, bounded overtaking, wake-ups and sleep order proved for all histories. REFUTED parts: Launch::dispatch across the queues is undefined behaviour (sched_dispatch_refuted); a notified wait until time_point::max() reports a timeout (sched_forever_refuted); a high priority fiber woken by the timer is queued at the back (sched_high_refuted). One thread's scheduler; the cycle budget policy is left nondeterministic."
  },
  {
   "property": "C35",
   "status": "partial",
   "theorems": [
    "wake_order",
    "wake_summoned",
    "wake_remote",
    "wake_oldest",
    "wake_quiescent",
    "wake_runs",
    "wake_prompt_refuted"
   ],
   "note": "REFUTED as literally stated: a task whose submission returned can sit in the queue of a sleeping proactor while an earlier submitter is stopped between taking its cell and publishing it (wake_prompt_refuted). Proved: whenever the loop sleeps with something queued, some submitting call is in progress and its own next (at most three) steps wake the loop; for fibers made ready remotely and for the oldest task at most one resp. two steps; with no call in progress a sleeping loop has nothing queued, and from every state the loop on its own runs everything submitted. UringProactor: assuming fewer than 2^31 submissions in one iteration; EpollProactor without that."
  },
  {
   "property": "C36",
   "status": "partial",
   "theorems": [
    "idle_add",
    "idle_remove",
    "idle_safe_partial",
    "idle_calls",
    "idle_ret",
    "idle_turn",
    "idle_safe_refuted",
    "idle_ret_refuted",
    "idle_unique_refuted"
   ],
   "note": "REFUTED in full: after a run that stopped in the middle, removing the last registered task makes the next run read past the vector (idle_safe_refuted); a task that removes itself, adds another and returns -1 unregisters the other (idle_ret_refuted); ids are reused (idle_unique_refuted). Proved: ids handed out are free, removal affects only its id, and, when the last slot is not removed through RemoveOnIdleTask and a task does not force a reallocation while it runs, no bad access, calls only registered and due tasks, negative level unregisters exactly the caller, round robin."
  },
  {
   "property": "C37",
   "status": "partial",
   "theorems": [
    "ring_completion",
    "ring_ignored",
    "ring_once",
    "ring_tags",
    "ring_pending",
    "ring_safe_partial",
    "ring_safe_refuted"
   ],
   "note": "All histories of submissions and completions, any initial table size. The memory-safety part holds when a multishot callback does not itself submit while the table is full; without that it is REFUTED (ring_safe_refuted)."
  },
  {
   "property": "C38",
   "status": "partial",
   "theorems": [
    "fdtab_safe",
    "fdtab_fresh",
    "fdtab_translate",
    "fdtab_unreg",
    "fdtab_kernel",
    "fdtab_count",
    "fdtab_full_partial",
    "fdtab_full_refuted"
   ],
   "note": "All histories and kernel answers, any table size. 'Registration fails only when all slots are in use' is REFUTED (fdtab_full_refuted): a registration the kernel refuses loses its slot; proved with those counted (fdtab_full_partial)."
  },
  {
   "property": "C39",
   "status": "partial",
   "theorems": [
    "epoll_own_partial",
    "epoll_delivered",
    "epoll_skipped",
    "epoll_arm",
    "epoll_disarm",
    "epoll_safe_partial",
    "epoll_own_refuted",
    "epoll_safe_refuted"
   ],
   "note": "All histories, any table size, for clients that do not arm a descriptor on an entry freed since the events were reported while one of its events is pending (epoll_own_partial), nor grow the table from a callback. Without that: REFUTED (epoll_own_refuted, epoll_safe_refuted)."
  },
  {
   "property": "C40",
   "status": "proved",
   "theorems": [
    "join_safe",
    "join_after",
    "join_wakes",
    "join_once",
    "join_returns"
   ],
   "note": "Fiber::Join / termination handshake, any number of joiners, every schedule: mutual exclusion on the wait list, Join returns only after the function, nobody left suspended, activated once, every pending Join can return."
  },
  {
   "property": "C41",
   "status": "proved",
   "theorems": [
    "advance_iovec",
    "advance_iovec_too_far",
    "is_empty_iovec",
    "iovec_total_bytes"
   ],
   "note": "AdvanceIovec, IsEmptyIovec, GetIovecTotalBytes."
  },
  {
   "property": "C42",
   "status": "partial",
   "theorems": [
    "resp_partial",
    "resp_overflow_refuted",
    "resp_dangling_refuted",
    "resp_late_refuted"
   ],
   "note": "REFUTED in full: cut inside an argument the parser writes behind a block it owns (resp_overflow_refuted) or returns a dangling argument (resp_dangling_refuted); a last byte that comes alone is not parsed (resp_late_refuted). Proved: any stream of commands, cut anywhere but inside an argument of an array."
  },
  {
   "property": "C43",
   "status": "proved",
   "theorems": [
    "sso_make",
    "sso_cstr",
    "sso_null",
    "sso_access",
    "sso_copy",
    "sso_substr",
    "sso_swap",
    "sso_compare",
    "sso_compare_sub",
    "sso_operators"
   ],
   "note": ""
  },
  {
   "property": "C44",
   "status": "partial",
   "theorems": [
    "human_exact_partial",
    "human_exact_frac_partial",
    "human_close",
    "human_accepts",
    "human_overflow_refuted",
    "human_exact_refuted",
    "human_view_refuted",
    "human_accepts_refuted"
   ],
   "note": "REFUTED in general: values that do not fit are converted with undefined behaviour instead of being rejected, odd values between 2^52 and 2^53 come out wrong, bytes behind the view are read, and white space, +, exponents and BiB are accepted. Proved: exact for all other whole numbers up to 2^53 units in range; every decimal number is right within 1/2 + 2^-50 relative; accepted suffixes characterised. Hexadecimal numerals, inf and nan are an oracle."
  },
  {
   "property": "C45",
   "status": "partial",
   "theorems": [
    "zstd_entire_partial",
    "zstd_sound",
    "zstd_defined",
    "zstd_decoder",
    "zstd_entire_refuted"
   ],
   "note": "REFUTED: output the decoder holds back when the input is used up and the output buffer is exactly full is never delivered (zstd_entire_refuted). Proved: what is delivered is a prefix; it is everything once a read came back short but not empty."
  },
  {
   "property": "C46",
   "status": "partial",
   "theorems": [
    "fq_safe",
    "fq_fifo",
    "fq_answered",
    "fq_add_wakes",
    "fq_run_wakes",
    "fq_quiescent",
    "fq_shutdown_refuted",
    "fq_returns_partial"
   ],
   "note": "Safety, FIFO order, answers of TryAdd/Add, wake-ups of Add and Run and quiescence are proved for any number of producers and any capacity. REFUTED: a callback accepted before Shutdown is called may never run (fq_shutdown_refuted): Run looks into the queue first and reads is_closed_ afterwards. fq_returns_partial states what has run when Run returns. FiberQueueThreadPool is not modelled."
  },
  {
   "property": "C47",
   "status": "proved",
   "theorems": [
    "listener_excl",
    "listener_limit",
    "listener_accept",
    "listener_idle"
   ],
   "note": "Every interleaving, up to 2^32-2 connections and 2^32-1 traversals at a time (the widths of the counters). A limit lowered below the current number of connections is not enforced retroactively: the bound is the largest limit set."
  },
  {
   "property": "C48",
   "status": "proved",
   "theorems": [
    "parse_query_lossless",
    "split_query_lossless"
   ],
   "note": ""
  },
  {
   "property": "C49",
   "status": "proved",
   "theorems": [
    "condvar_no_lost_wakeup"
   ],
   "note": "notify_all with the data changed under the mutex; timed waits not modelled."
  },
  {
   "property": "C50",
   "status": "partial",
   "theorems": [
    "barrier_cancel_race_refuted",
    "barrier_cancel_lost_refuted",
    "barrier_cancel_partial"
   ],
   "note": "REFUTED: Cancel() notifies outside the mutex (data race on the wait queue), and a last arrival after Cancel() wraps cycle_ to 0 so that first-round waiters stay suspended. Proved: while cycle_ keeps its cancelled value nobody stays suspended."
  },
  {
   "property": "C51",
   "status": "proved",
   "theorems": [
    "periodic_safe",
    "periodic_runs",
    "periodic_cancelled",
    "periodic_quiet",
    "periodic_one"
   ],
   "note": "UringProactor. The kernel takes submissions in order and distinguishes timers by user_data; user_data values of timers in flight are distinct (C37)."
  },
  {
   "property": "C52",
   "status": "partial",
   "theorems": [
    "listener_visits_partial",
    "listener_visit",
    "listener_visits_refuted"
   ],
   "note": "REFUTED in general (listener_visits_refuted): a connection that migrates during the call can be missed. Proved for connections that do not migrate or close during the call, whatever the others do."
  },
  {
   "property": "C53",
   "status": "partial",
   "theorems": [
    "human_roundtrip_partial",
    "human_roundtrip_small",
    "human_roundtrip_unit",
    "human_flag_partial",
    "human_flag_refuted"
   ],
   "note": "REFUTED in general: 1537 comes back as 1536, and sizes that print as 8.00EiB are undefined. Proved: within one part in 16 up to 7.875 EiB; exact below 1024 bytes and for fewer than 1024 whole units."
  },
  {
   "property": "C54",
   "status": "partial",
   "theorems": [
    "compact_map_partial",
    "compact_returns",
    "compact_refuted",
    "compact_search_refuted"
   ],
   "note": "Histories in which Compact() returned true. REFUTED if it returns false: compact_refuted (keys are lost), compact_search_refuted (it gives up although the keys fit)."
  },
  {
   "property": "C55",
   "status": "partial",
   "theorems": [
    "upload_object_partial",
    "upload_azure_object_partial",
    "upload_returns",
    "upload_aborts",
    "upload_delivers_partial",
    "upload_part_sizes",
    "upload_vectored_refuted",
    "upload_gap_refuted",
    "upload_s3_empty_refuted"
   ],
   "note": "REFUTED for writes of several different buffers (upload_vectored_refuted: the first one is stored again and again) and, for S3 and GCS, after a failed write (upload_gap_refuted); an empty S3 object cannot be stored. Proved for writes whose buffers are equal (one buffer): the object is the data if all calls succeed, for Azure also after failures; no abort, part sizes, success on a reliable network."
  },
  {
   "property": "C56",
   "status": "proved",
   "theorems": [
    "sdk_object",
    "sdk_object_all",
    "sdk_returns",
    "sdk_delivers",
    "sdk_part_sizes",
    "sdk_zero_part_refuted"
   ],
   "note": "For every part size above 0; with 0 the first write never returns (sdk_zero_part_refuted). Close of an empty object fails because S3 refuses an empty list of parts."
  },
  {
   "property": "C57",
   "status": "partial",
   "theorems": [
    "send_paired_partial",
    "send_unread_refuted",
    "send_retry_count_refuted",
    "send_large_error_refuted"
   ],
   "note": "Proved for the default retry count, if users read bodies to their end and error bodies are below 8 MB. REFUTED without any of the three: partly read body (GcsReadFile destroyed early), set_retry_count(2), large error body."
  },
  {
   "property": "C58",
   "status": "partial",
   "theorems": [
    "send_success",
    "send_failure",
    "send_bounded",
    "send_resigned",
    "send_healthy_partial",
    "send_stale_refuted",
    "send_zero_refuted"
   ],
   "note": "All parts proved but the last: if network and server work, Send succeeds when fewer idle connections are stale than it has iterations. REFUTED otherwise (three idle connections closed by the server make Send(3) fail), and Send(0) reports success."
  },
  {
   "property": "C59",
   "status": "proved",
   "theorems": [
    "pool_safe",
    "pool_exclusive",
    "pool_count"
   ],
   "note": "For every retry count."
  },
  {
   "property": "C60",
   "status": "partial",
   "theorems": [
    "s3_reads_partial",
    "s3_size",
    "s3_complete",
    "s3_hole_refuted",
    "s3_empty_refuted",
    "s3_whole_refuted"
   ],
   "note": "REFUTED in part: a failed read leaves a gap (s3_hole_refuted), an empty object cannot be read (s3_empty_refuted), a response that ignores the range overflows the buffer (s3_whole_refuted). The rest is proved for services that honour ranges."
  },
  {
   "property": "C61",
   "status": "partial",
   "theorems": [
    "stream_reads_partial",
    "stream_complete",
    "gcs_no_length_refuted"
   ],
   "note": "REFUTED for GCS responses without a length: the read after the failed one aborts the process (gcs_no_length_refuted). Proved for all other responses and readers."
  },
  {
   "property": "C62",
   "status": "partial",
   "theorems": [
    "tls_write_stream",
    "tls_flushed",
    "tls_empty_write_refuted",
    "tls_retry_refuted"
   ],
   "note": "REFUTED in part: an empty buffer in WriteSome or TrySend can fail CHECK(!buf.empty()) (tls_empty_write_refuted), and a TrySend shorter than one that reported EAGAIN kills the connection (tls_retry_refuted). Proved without these: the wire carries a prefix of the stream and complete writes are flushed. One writer fiber, one reader fiber; the engine is a specification of OpenSSL; Shutdown and handshake not modelled."
  },
  {
   "property": "C63",
   "status": "partial",
   "theorems": [
    "tls_read_stream",
    "tls_no_truncation",
    "tls_zero_read_refuted"
   ],
   "note": "REFUTED in part: RecvMsg into a buffer of length 0 never returns (tls_zero_read_refuted). Proved: stream order and no truncation, for any engine decisions and interleaving."
  },
  {
   "property": "C64",
   "status": "proved",
   "theorems": [
    "tls_safe",
    "tls_no_deadlock",
    "tls_try_recv_again",
    "tls_wake"
   ],
   "note": "For calls without empty write buffers (C62). The callback API is not part of this model."
  },
  {
   "property": "C65",
   "status": "partial",
   "theorems": [
    "async_write_stream_partial",
    "async_flushed_partial",
    "async_read_stream_partial",
    "async_no_truncation_partial",
    "async_safe",
    "async_no_hang",
    "async_resumed",
    "async_write_twice_refuted",
    "async_read_garbled_refuted",
    "async_write_zero_refuted",
    "async_empty_read_refuted"
   ],
   "note": "REFUTED in general: a write that waits for the reader's upstream write is pushed again and sent twice (async_write_twice_refuted); a write that waits for the reader's upstream read is resumed before the received bytes are committed and the reader gets garbage (async_read_garbled_refuted); success with 0 bytes for a write on a closed connection; a read into an empty buffer never completes. Proved without restriction: safety, no hang, resumption (nonempty buffers). Proved for connections where writing never needs reading: the read stream; where in addition reading never needs writing: the write stream."
  },
  {
   "property": "C66",
   "status": "proved",
   "theorems": [
    "epoll_safe",
    "epoll_woken",
    "epoll_async_woken",
    "epoll_shutdown_wakes",
    "epoll_shut_returns",
    "epoll_close",
    "epoll_timeout_returns",
    "epoll_no_timeout",
    "epoll_accept_timeout",
    "epoll_close_hang_refuted"
   ],
   "note": "One socket with any number of fibers; the kernel side is a model of TCP readiness and edge-triggered epoll. epoll_close_hang_refuted is outside the contract: Close without Shutdown leaves a blocked call waiting for ever."
  },
  {
   "property": "C67",
   "status": "partial",
   "theorems": [
    "epoll_recv_stream",
    "epoll_write_stream",
    "epoll_result",
    "epoll_recv_error_hides_data_refuted",
    "epoll_half_close_refuted"
   ],
   "note": "Streams, amounts and causes of every result are proved. REFUTED: the last sentence. A Recv that was blocked when a reset came returns connection_aborted before data that arrived earlier; after Shutdown(SHUT_WR) Recv returns 0 while data is unread."
  },
  {
   "property": "C68",
   "status": "partial",
   "theorems": [
    "epoll_async_once",
    "epoll_hook_told",
    "epoll_hook_all_partial",
    "epoll_errcb_told",
    "epoll_errcb_once",
    "epoll_hook_lost_refuted",
    "epoll_hook_after_recv_refuted",
    "epoll_errcb_late_refuted"
   ],
   "note": "AsyncWriteSome and the error callback after registration are proved; the hook is proved for input after the registration, and for all input if no blocking calls are used. REFUTED in general: the wake-up of a blocked writer, or a Recv that reads a part, clears read_notified_, and a hook registered later is not told; an error callback registered after the peer has closed is not called."
  },
  {
   "property": "C69",
   "status": "partial",
   "theorems": [
    "upoll_safe_partial",
    "upoll_armed_partial",
    "upoll_quiet_partial",
    "upoll_freed_partial",
    "upoll_late_refuted",
    "upoll_failed_refuted"
   ],
   "note": "REFUTED in two respects: if the kernel ends the multishot while EpollDel removes it, the poll is armed again and the callback runs after EpollDel has returned (upoll_late_refuted); a poll request that fails by itself deletes the entry, and EpollDel then uses it (upoll_failed_refuted). Proved without failures: no use after deletion, always armed; without ends as well: quiet after EpollDel, deleted exactly once."
  },
  {
   "property": "C70",
   "status": "partial",
   "theorems": [
    "bufring_safe",
    "bufring_stream",
    "bufring_all",
    "bufring_returned",
    "bufring_handled_partial",
    "bufring_armed",
    "bufring_burst_refuted",
    "bufring_error_refuted",
    "bufring_reset_refuted",
    "bufring_4gb_refuted"
   ],
   "note": "Stream, agreement of proactor and kernel, no lost buffer, progress and re-arming are proved. REFUTED: a burst that fills the ring aborts the process (bufring_burst_refuted), errors are reported with the wrong sign (bufring_error_refuted), the hook is called after ResetOnRecvHook (bufring_reset_refuted), rings of more than 4GB overlap (bufring_4gb_refuted)."
  },
  {
   "property": "C71",
   "status": "proved",
   "theorems": [
    "errcb_safe",
    "errcb_once",
    "errcb_remove_own",
    "errcb_no_leak",
    "errcb_watched",
    "errcb_reported",
    "errcb_cancel_removes"
   ],
   "note": "One socket whose proactor serves other requests too; request ids are centries_ slots, reused freely. Assumes the kernel executes submissions in order and does not refuse a poll; each registration is cancelled (or the socket closed) before the next, as the header demands."
  },
  {
   "property": "C72",
   "status": "proved",
   "theorems": [
    "rwspin_exclusion",
    "rwspin_stable",
    "rwspin_clean",
    "rwspin_lock",
    "rwspin_shared",
    "rwspin_upgrade",
    "rwspin_promote",
    "rwspin_upgrader_blocks",
    "rwspin_no_overflow"
   ],
   "note": "Sequentially consistent interleavings of the atomic operations; fewer than 2^29 - 1 threads (the 32-bit word). Starvation is not excluded (the header says so)."
  },
  {
   "property": "C73",
   "status": "proved",
   "theorems": [
    "pool_await",
    "pool_fifo",
    "pool_awake",
    "pool_progress",
    "pool_terminates"
   ],
   "note": "Queue, EventCount and blocking counter are abstract here (C11, C12, C14 and C16 are about them). Return of the calls is pool_progress together with pool_terminates: it is proved for runs in which no further calls are made, with no fairness assumption; under an endless stream of new calls it is not claimed. Calls from inside a brief task, which must not block, are not modelled; nor is DispatchLocalBrief."
  },
  {
   "property": "C74",
   "status": "proved",
   "theorems": [
    "intern_content",
    "intern_valid",
    "intern_same",
    "intern_once",
    "intern_empty",
    "intern_race_free"
   ],
   "note": "The lock is abstract (C72 is about RWSpinLock); contents are compared by equality only."
  },
  {
   "property": "C75",
   "status": "partial",
   "theorems": [
    "ffile_safe_partial",
    "ffile_right_partial",
    "ffile_exact_partial",
    "ffile_error",
    "ffile_returns_partial",
    "ffile_closes",
    "ffile_close",
    "ffile_seek_refuted",
    "ffile_stale_refuted",
    "ffile_overrun_refuted",
    "ffile_destroy_refuted"
   ],
   "note": "REFUTED in full: a seek with no prefetch in progress hangs (ffile_seek_refuted), a failed prefetch yields stale bytes or an overrun (ffile_stale_refuted, ffile_overrun_refuted), destruction without Close is a use after free (ffile_destroy_refuted). Proved: with prefetches that do not fail, every answer at any offset is right, no race or overrun, sequential reads and Close return. Missing from the partial theorems: failing prefetches, the return of reads after a seek; the last two are false of the code."
  },
  {
   "property": "C76",
   "status": "partial",
   "theorems": [
    "dns_global_partial",
    "dns_safe_partial",
    "dns_armed_partial",
    "dns_clean_partial",
    "dns_global_refuted",
    "dns_global_uaf_refuted",
    "dns_rehash_refuted",
    "dns_mask_refuted"
   ],
   "note": "REFUTED in full: dns_global_refuted and dns_global_uaf_refuted (the global resolver wakes its caller too early), dns_rehash_refuted (a socket opened in the loop), dns_mask_refuted (mask changes are skipped). Proved when those are left out: the right result if the callback ends first; armed callbacks are those of the open sockets, nothing remains after the return. Not modelled: the time-outs of ProcessChannel and notifications that come while the fiber is suspended in EpollDel."
  },
  {
   "property": "C77",
   "status": "partial",
   "theorems": [
    "list_gcs_url",
    "list_s3_url",
    "list_az_url",
    "list_buckets_url",
    "list_sees_unique",
    "list_gcs_loop",
    "list_s3_loop",
    "list_az_loop",
    "list_unique",
    "list_buckets_partial",
    "list_containers_partial",
    "list_buckets_refuted",
    "list_containers_refuted"
   ],
   "note": "REFUTED for GCS::ListBuckets (ends with success at a page without items that has a next page) and for Azure ListContainers (gives the first page as if it was all); both proved where the server does not do that. Object listing (GCS, S3, Azure) and the requests are proved in full. Parsing of JSON and XML is not modelled."
  },
  {
   "property": "C78",
   "status": "partial",
   "theorems": [
    "div_u64",
    "div_u32",
    "div_alg",
    "div_mullhi",
    "div_wide_partial",
    "bucket_mod",
    "bucket_cuckoo",
    "prime_partial",
    "prime_returns_partial",
    "div_u64_refuted",
    "bucket_reserve_refuted",
    "prime_refuted",
    "prime_small_refuted"
   ],
   "note": "Division proved in full on x86 and for divisors below 2^63 elsewhere; REFUTED there for larger ones (a shift by 64). Buckets proved for every count from GetPrimeNotLessThan(16 or more); REFUTED for Reserve(2^34) of an empty map. GetPrimeNotLessThan proved from 3 to 65535^2; REFUTED for 2 and from 2^32 on. The signed and SSE2 functions of libdivide.h, which nothing uses, are not modelled."
  },
  {
   "property": "C79",
   "status": "partial",
   "theorems": [
    "usock_safe",
    "usock_out",
    "usock_in",
    "usock_once",
    "usock_alive",
    "usock_waiting",
    "usock_fds",
    "usock_files",
    "usock_close",
    "usock_shutdown_sets",
    "usock_shut_stays",
    "usock_shutdown_partial",
    "usock_try_shutdown",
    "usock_errors",
    "usock_word",
    "usock_accepted",
    "usock_recv_refuted",
    "usock_async_refuted",
    "usock_reuse_refuted",
    "usock_connect_refuted",
    "usock_word_refuted"
   ],
   "note": "REFUTED in four points: Recv does not test for Shutdown (usock_recv_refuted), AsyncWriteSome passes EAGAIN on (usock_async_refuted), a failed Connect leaves the socket open so that another Connect kills the process (usock_connect_refuted), and a Close between AsyncWriteSome and its submission can send the bytes on another connection (usock_reuse_refuted, outside the rules). The rest is proved. usock_word_refuted: the word holds 2^27 descriptors, not 2^28."
  },
  {
   "property": "C80",
   "status": "partial",
   "theorems": [
    "file_read_partial",
    "file_read_safe_partial",
    "file_read_ends",
    "file_read_refuted",
    "file_write",
    "file_write_ends",
    "file_written_unique",
    "linux_read",
    "linux_read_ends_partial",
    "linux_read_past_end_refuted",
    "read_fixed_partial",
    "read_fixed_refuted",
    "file_target_partial",
    "file_target_refuted",
    "file_close_partial",
    "file_close_zero_refuted"
   ],
   "note": "REFUTED in part: Read can write behind a buffer after two short reads of one entry (RUb; file_read_refuted), LinuxFile::Read past the end of file spins, ReadFixed accepts short reads, ReadFixed and FSync of a direct file act on another file, descriptor 0 is never closed. The rest is proved for all files, buffers and kernel answers."
  },
  {
   "property": "C81",
   "status": "partial",
   "theorems": [
    "sign_accepted_partial",
    "sign_built",
    "sign_frame",
    "sign_token",
    "sign_canon_unique",
    "sign_path_refuted",
    "sign_query_refuted",
    "sign_old_token_refuted",
    "s3_key_partial",
    "s3_key_refuted"
   ],
   "note": "REFUTED for paths with % ! * ( ), queries with ! * ( ), keys with % or ?, and for a token that is no longer there. Proved for all other requests, for any hash functions; the service's side is after the AWS document."
  },
  {
   "property": "C82",
   "status": "partial",
   "theorems": [
    "cred_serial",
    "cred_asks",
    "cred_sign",
    "cred_returns_partial",
    "cred_bounded",
    "cred_available",
    "cred_wait_refuted",
    "cred_twice_refuted"
   ],
   "note": "REFUTED for RefreshToken: it succeeds when the refresh it waited for failed. The rest is proved for all schedules; several requests of one fetch count as one."
  },
  {
   "property": "C83",
   "status": "partial",
   "theorems": [
    "ini_total",
    "ini_spec",
    "url_parsed_partial",
    "url_brackets_refuted",
    "endpoint_same_partial",
    "endpoint_same_refuted",
    "endpoint_order_partial",
    "region_order_partial",
    "region_order_refuted",
    "region_empty_refuted",
    "init_partial",
    "init_ub_refuted"
   ],
   "note": "REFUTED for bracketed addresses without a port, for the order and empty values of the region variables, and for answers that are not JSON objects. Proved otherwise; the world does not change during Init."
  },
  {
   "property": "C84",
   "status": "partial",
   "theorems": [
    "log_safe",
    "log_contents",
    "log_buffer",
    "log_order",
    "log_off",
    "log_urgent",
    "log_flush",
    "log_destroy",
    "log_age",
    "log_age_refuted",
    "log_size",
    "log_size_refuted",
    "log_close_refuted",
    "log_link",
    "log_dir"
   ],
   "note": "Proved for all schedules and answers, except: REFUTED in three places. --logbufsecs bounds the wait only against later messages of the same log (log_age), a message of another log does not start a flush (log_age_refuted). Rotations within one second reopen the same file and the size limit is lost (log_size_refuted). A failing fclose on rotation or destruction loses messages silently (log_close_refuted); the other theorems assume it succeeds."
  },
  {
   "property": "C85",
   "status": "partial",
   "theorems": [
    "http_auth",
    "http_dispatch",
    "http_register",
    "http_shadow_refuted",
    "http_flagz",
    "http_flagz_refuted",
    "http_filez",
    "http_filez_all",
    "http_throw",
    "http_throw_refuted",
    "http_split",
    "http_parse",
    "http_stream",
    "http_again_refuted"
   ],
   "note": "REFUTED in four points: a callback on a built-in path is accepted but never called (http_shadow_refuted); showing a flag sets it to the empty text (http_flagz_refuted); a name that cannot be resolved ends the connection without an answer (http_throw_refuted); a second ParseFromBuffer call does not continue the first (http_again_refuted). The rest is proved."
  },
  {
   "property": "C86",
   "status": "partial",
   "theorems": [
    "az_sign",
    "az_text_unique",
    "az_range_refuted",
    "az_twice_refuted",
    "az_empty_refuted",
    "az_key_refuted",
    "az_sas",
    "az_sas_again",
    "az_bearer",
    "az_setting",
    "az_setting_unique",
    "az_endpoint",
    "az_loaded",
    "az_requested",
    "az_endpoint_refuted",
    "az_string_first",
    "az_env_next",
    "az_identity_last",
    "az_defined",
    "az_imds_refuted",
    "az_fail",
    "az_refresh",
    "az_object"
   ],
   "note": "REFUTED in part: standard headers other than Content-Length and repeated parameters are not signed as the service expects, an empty parameter value and some identity replies are undefined behaviour, a key that is not Base64 aborts, BlobEndpoint is ignored with a requested account. The rest of the statement is proved."
  },
  {
   "property": "C87",
   "status": "partial",
   "theorems": [
    "srv_add",
    "srv_port",
    "srv_silent_refuted",
    "srv_other_refuted",
    "srv_uds",
    "srv_safe",
    "srv_wait",
    "srv_told",
    "srv_progress",
    "srv_early",
    "srv_missed_refuted",
    "srv_wait_refuted",
    "srv_iter_refuted"
   ],
   "note": "REFUTED in part: success without a listener if no socket can be created, later addresses of a family are not tried; a connection that migrates while its listener stops can be missed, outlive Wait, or derail the loop over the list. Proved: binding if a socket can be created, and the whole of the shutdown for schedules without migrations after the accept loop has ended."
  },
  {
   "property": "C88",
   "status": "partial",
   "theorems": [
    "varz_list_safe",
    "varz_list",
    "varz_format",
    "varz_quote_refuted",
    "varz_backslash_refuted",
    "varz_avg",
    "varz_avg_safe",
    "varz_avg_twice_refuted",
    "varz_avg_rehash_refuted"
   ],
   "note": "REFUTED in part: Format escapes nothing, so a quote makes two values look the same and a backslash makes the text unreadable; VarzMapAverage lists a key once per thread, not once, and a key that is new to a thread while GetData waits there is undefined behaviour. Proved in full: the list and Iterate; Format for strings that need no escaping; per thread, the keys, sums and counts of VarzMapAverage."
  },
  {
   "property": "C89",
   "status": "partial",
   "theorems": [
    "sm_distinct",
    "sm_all",
    "x_seed",
    "x_used",
    "x_period",
    "x_all",
    "x_jump_partial",
    "x_jump_refuted",
    "x_jump_right"
   ],
   "note": "REFUTED in part: jump() uses the constants of the shifts 55, 14, 36 although the generator uses 24, 16, 37, so from no state is it equivalent to 2^64 calls (x_jump_refuted); x_jump_right gives the constants for which it is, x_jump_partial what holds as it is. Proved in full: SplitMix64, seeding, the zero state is never reached, the period of Xoroshiro128p is exactly 2^128-1 and every state is reached."
  },
  {
   "property": "C90",
   "status": "proved",
   "theorems": [
    "murmur_safe",
    "murmur_seed",
    "murmur_block",
    "fingerprint_marks"
   ],
   "note": "XXH64 itself is an oracle; memcpy is taken on a little-endian machine."
  }
 ]
}