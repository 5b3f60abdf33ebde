{
"C01": [
"proved",
"all interleavings at atomic-operation granularity, any number of coroutines, bag queue, spurious empty allowed"
],
"C02": [
"partial",
"full statement refuted (waiter enqueues after the last release looked at the queue); partial: schedules that never hit that window; stranded waiters are recovered by the next lock/unlock. C02_every_late_waiter_strands_refuted: for every history, a coroutine that reaches its enqueue while nobody owns, is handed or releases the mutex suspends on the free mutex until somebody new asks for it."
],
"C03": [
"proved",
"all handle programs, single and shared handles"
],
"C06": [
"proved",
"refinement to an abstract automaton for documented use (1 <= done amount <= count, no overflow); done(0): C92"
],
"C07": [
"partial",
"refuted twice (done(n>1) to zero wakes nobody; check/enqueue race); partial theorem for the other schedules. How false: C07_every_done_of_many_strands_refuted (every history, every done(n), n > 1, that reaches zero with nobody inside done(): no waiter is resumed before the next done()) and C07_every_late_waiter_strands_refuted (every waiter that enqueues at counter zero with nobody inside done())."
],
"C08": [
"proved",
"all programs; assignment over a live guard: C80"
],
"C45": [
"partial",
"refuted under reuse while draining; holds if no add() happens while a done() drains"
],
"C04": [
"partial",
"refuted three ways; proved for all histories, waiting readers included, that do not hit one of the two defects (defects_not_hit), and for all histories in which no acquire_shared() has to wait"
],
"C05": [
"partial",
"refuted (writers blocked forever, second reader stranded); holds for histories in which no acquire_shared() has to wait"
],
"C46": [
"partial",
"refuted: try_acquire never succeeds; proved: it never waits, never succeeds while held"
],
"C47": [
"partial",
"refuted by a schedule; holds when no acquire_shared() has to wait (C04_asserts_hold_partial). Also proved: the late access happens only in executions where an acquire_shared() waits (C47_only_where_a_reader_waits_partial)."
],
"C09": [
"proved",
"one promise, one future: all schedules incl. spurious wake-ups; safety part for any number of futures; two futures: C93"
],
"C10": [
"proved",
"exact function of the history of calls, for every history; blocking get() is C69"
],
"C11": [
"proved",
"every history of any number of registered threads, every standard-conforming heap; after stop(): C67; other threads: C68"
],
"C12": [
"partial",
"refuted: within a poll tasks are handed over in non-increasing deadline order, for every heap implementation. Also proved: across polls the order of deadlines is kept (C12_across_polls_partial)."
],
"C13": [
"proved",
"every reachable state; after stop(): C67"
],
"C14": [
"proved",
"all interleavings of registered threads; others: C94"
],
"C15": [
"proved",
"all interleavings of worker loop at atomic-access granularity, non-atomic emptiness scan included"
],
"C16": [
"partial",
"refuted: enqueue after a graceful stop() is accepted and never executed; also race with quick_stop()"
],
"C44": [
"proved",
"all schedules; stop() on a worker thread: C78"
],
"C25": [
"proved",
"for every 32-bit kernel answer but INT_MIN (never returned by the kernel) and every errno"
],
"C26": [
"proved",
"for every buffer and kernel; plain files, zero-byte answers and 2^32-byte buffers: C82"
],
"C27": [
"proved",
"all kernel behaviours (short reads, errors, timeouts, end of file); exceptions and the throwing overloads: C83"
],
"C28": [
"partial",
"refuted for short writes, counter wrap and the constructor; holds when a write is complete"
],
"C29": [
"proved",
"for every effectful, possibly throwing function; also the void specialisation"
],
"C40": [
"proved",
"all classes but these two, all error codes; the two: C81"
],
"C48": [
"proved",
"all programs with one get_fd/get_client; otherwise C90"
],
"C49": [
"partial",
"refuted: zero-byte answers are retried forever; returns if every successful answer has at least a byte"
],
"C17": [
"proved",
"all finite programs within the documented use (a throwing await_suspend and quick_stop are C50/C51); misuse is C70"
],
"C18": [
"proved",
"any number of callers, all interleavings of compare-exchange and move"
],
"C50": [
"partial",
"refuted: the by-value handle destroys the frame while the exception leaves await_suspend, the exception is then rethrown in the destroyed frame"
],
"C51": [
"partial",
"refuted: enqueue_no_future throws inside noexcept task_scheduler::enqueue; without quick_stop no terminate (partial theorem) C51_every_start_after_quick_stop_refuted: for every history with a quick_stop() in it and every task object that still owns its unstarted coroutine and its future, run(), run_and_get_future() and co_await end the process."
],
"C34": [
"proved",
"all callers together and every window of dispatches, every start value of the shared counter, up to the wrap of the 64-bit counter; t >= 1 workers"
],
"C35": [
"proved",
"every completion order; elements after an exception: C76; parallelism: C52"
],
"C52": [
"partial",
"refuted: the transform view is lazy, an element is launched only after the previous one completed; co_await_all over futures obtained beforehand is parallel"
],
"C53": [
"partial",
"refuted for concurrent calls; an uninterrupted call is even (C34_even_window). Also proved for every execution: an uninterrupted call spreads its k draws evenly over any window length (C53_uninterrupted_call_partial)."
],
"C41": [
"proved",
"FIFO for all operation sequences; single-threaded scheduler: all spawn trees with throws, by induction on the tree"
],
"C54": [
"proved",
"all sequences in which moved-from wrappers are not used"
],
"C32": [
"proved",
"every interleaving; after a worker ended: C74"
],
"C33": [
"proved",
"every interleaving of the workers of one event loop; two event loops / quick_stop: C75"
],
"C55": [
"proved",
"exact characterisation over all histories; loops added after stop(): C84"
],
"C19": [
"proved",
"all interleavings of one consumer and the generator, all value lists; bodies that throw: C71"
],
"C20": [
"proved",
"for every sequence and every binary predicate (runs are compared with their first element)"
],
"C21": [
"proved",
"for every pair of value lists and every comparator; ties: C72"
],
"C56": [
"proved",
"every reachable state"
],
"C57": [
"proved",
"all programs; assignment over a live generator: C86"
],
"C22": [
"proved",
"any number of threads/rings, coroutines, batches; kernel takes entries at any submit and completes in any order; hypothesis: each batch executed once, not touched while executing, fits the submission queue (C58/C59 cover the rest)"
],
"C23": [
"proved",
"all call sequences on a new batch before its first execution; reuse after execution is C58"
],
"C24": [
"partial",
"refuted: slots are in completion order, and is_timeout/single-operation results then misreport; partial: holds when the kernel completes the batch's entries in submission order"
],
"C42": [
"proved",
"every reachable state before a graceful stop, 32-bit counter"
],
"C43": [
"proved",
"for every set of pending operations"
],
"C58": [
"partial",
"refuted in all forms (UB after clear with a deadline, never resumed, resumed early); C22 is what holds for single-use batches For every history: a batch with at least as many results as entries that is executed again is not resumed for that execution as long as no further call is made on it (C58_again_never_resumes_refuted)."
],
"C59": [
"partial",
"refuted for every batch of more than 1024 entries; batches that fit are accepted"
],
"C60": [
"partial",
"refuted: only the calling thread's ring is stopped; on that thread it takes effect"
],
"C30": [
"proved",
"for schedules without destruction, as the statement says; destruction: C95"
],
"C31": [
"partial",
"False of the code: a poller whose waiter was already served creates the lock file for nobody, and the lock is lost for ever (refuted theorem, permanence proved from every reachable orphan state). Partial: in schedules where a poller that gets the file finds a waiter, the file always has an owner and a live poller can serve the queue."
],
"C61": [
"partial",
"False of the code for every pool size n: n simultaneous unlocks block all workers for ever (refuted theorem). Partial: with at least one worker outside unlock(), each unlock in progress can complete."
],
"C36": [
"proved",
"for every address string and every decimal rendering of a port; ip_address::make (toolpex) is an arbitrary function"
],
"C62": [
"partial",
"False of the code for all of them (refuted theorems quantify over all such strings): atoi plus a cast to 16 bits; values beyond int are undefined behaviour. Only the missing colon is rejected (C36). What is rejected where the behaviour is defined: exactly the literals without a colon and those whose address is refused (C62_what_is_rejected_partial)."
],
"C37": [
"proved",
"all schedules, any number of accept loops"
],
"C63": [
"partial",
"False of the code from every reachable started state (the wait group is not moved, and the loops keep using the old object). Moving before start() is covered by C37's partial theorem. What holds: moves before start() change nothing (C63_moved_before_start_partial), and the accept loops, the clients handed over and the stop flag do not depend on moves at any time (C63_loops_do_not_notice_partial)."
],
"C64": [
"proved",
"at most three steps per loop after stop(); loops_idle implies all ended"
],
"C38": [
"proved",
"all queue-length/error sequences, all clocks; the bound on lateness is relative to the timer's lateness; overflow of the deadline is C65"
],
"C65": [
"proved",
"all overloads, all clocks; milliseconds::max() and overflow: C87"
],
"C39": [
"proved",
"every message, fragmentation and continuation; failure reporting: C88. The header has an unbalanced #endif and cannot be compiled as it is."
],
"C66": [
"proved",
"every reachable state; try_acquire may also be refused while a release is in its wake-up phase although nobody owns the mutex (stated, with an example)"
],
"C67": [
"partial",
"False of the code: no continuation ever resumes a sleeper pending at stop(); the idle time becomes infinite (both refuted theorems quantify over all continuations / concrete reachable state). After any history with a stop and no poll under way nobody is ever resumed and every thread is told that nothing is pending (C67_everybody_is_lost_refuted, C67_idle_time_infinite_refuted). What holds: a poll under way when stop() comes still resumes all the sleepers of its thread that are due (C67_poll_under_way_partial)."
],
"C68": [
"partial",
"False of the code: null pointer dereference, in every state (refuted)."
],
"C69": [
"partial",
"False of the code twice: get() after a ready() that answered true blocks for ever; a spurious wake-up makes get() throw. Partial: without either, get() returns exactly the stored result."
],
"C70": [
"partial",
"False of the code: undefined behaviour in all three cases (refuted)."
],
"C71": [
"partial",
"False of the code: the consumer stays suspended for ever (refuted for all schedules). Also proved: up to the exception the consumer gets exactly the yielded values in order (C71_values_before_the_exception_partial)."
],
"C72": [
"partial",
"False of the code: merge(l,r) is std::merge(r,l) for all inputs (theorem). Also proved: without equivalent elements across the two inputs the result is std::merge (C72_without_ties_partial)."
],
"C73": [
"partial",
"False of the code for -EPERM with a stale errno (refuted); exact for every other failure. C73_every_stale_errno_refuted and C73_exact_iff_partial: over all failures and all values of errno the report is exact except precisely for -EPERM with a leftover errno that is neither 0 nor EPERM."
],
"C74": [
"partial",
"False of the code: the ended thread's attribute object is dereferenced (refuted). Also proved: as long as every add_loop happens before the first worker exit, no undefined behaviour (C74_added_while_all_workers_run_partial). C74_add_after_any_worker_exit_refuted: for every history in which a worker has ended, the next add_loop() of a new loop uses the attribute object of the ended thread."
],
"C75": [
"partial",
"False of the code: the function-local static vector is shared between event loops (data race, wrong minimum); quick_stop() does not set the flag that refuses events. Also proved: if the event loops use max_sleep_duration one at a time the answer is the minimum (C75_idle_times_one_at_a_time_partial)."
],
"C76": [
"partial",
"False of the code: no element after the first failing one is ever run (theorem for all schedules). Also proved: up to and including the first failure everything runs in order (C76_up_to_the_first_failure_partial)."
],
"C77": [
"partial",
"False of the code: 10 s are offered (refuted). So for every history with a stop() and every thread (C77_always_ten_seconds_refuted). What holds: after quick_stop() alone the idle time is zero while something is outstanding (C77_after_quick_stop_partial)."
],
"C78": [
"partial",
"False of the code: join() of the own thread throws inside a noexcept function, std::terminate (refuted). Also proved for all schedules: terminated exactly if the first stop() of all comes from a worker (C78_exactly_the_first_from_a_worker_partial)."
],
"C79": [
"partial",
"False of the code: cancel_all cancels one; cancel_any cancels everything; number_canceled() is 0 after a successful cancellation (refuted for all pending sets). Also proved: right with at most one matching operation pending, never touches others, the batch version counts right, 'nothing cancelled' is always reported (C79_…_partial)."
],
"C80": [
"partial",
"False of the code: the overwritten registration is leaked, wait() then never completes (refuted, both forms). Also proved for every program over guards: exactly the registrations assigned over or cleared while live are lost, nothing else (C80_only_overwritten_is_leaked_partial); assignment over an empty guard moves the registration."
],
"C81": [
"partial",
"False of the code for every error code: \"no error\" is reported and has_error_code() reads an indeterminate value (theorem)."
],
"C82": [
"partial",
"False of the code in all three ways (refuted). Also proved: if the first write takes the whole buffer the plain file is right (C82_taken_at_once_partial)."
],
"C83": [
"partial",
"False of the code: count 0 with bytes in the buffer; a uring_exception is not reported at all; ECANCELED is swallowed (refuted). Also proved for all kernel behaviours: the overloads with an error code report a cancellation with the exact count and every foreign exception with an error (C83_reported_by_the_code_partial)."
],
"C84": [
"partial",
"False of the code: accepted, never stopped (refuted). Also proved: a loop added before some stop is stopped (C84_added_before_a_stop_partial). C84_added_after_the_last_stop_refuted: for every history and every loop added in it after which stop() is not called again, the loop is driven and never receives stop(), however often stop() was called before."
],
"C85": [
"partial",
"False of the code: the consumer is woken in return_void, before the locals are destroyed (refuted). Also proved: after the end is seen only the destruction of the locals is left (C85_only_destruction_is_left_partial)."
],
"C86": [
"partial",
"False of the code: the frame leaks (refuted). Also proved: assignment over an empty generator leaks nothing and keeps ownership unique (C86_over_an_empty_generator_partial). C86_every_assignment_over_a_body_leaks_refuted: for every history, an assignment from another generator object over one that still has a body leaves that body alive and unreachable for ever, whatever is destroyed afterwards."
],
"C87": [
"partial",
"True through op_batch::timeout(duration) (theorem); elsewhere signed overflow for every clock value (refuted)."
],
"C88": [
"partial",
"False of the code: success after errors, short prefix writes and 11 timeouts; a prefix timeout is an empty message (refuted); sender proved for smooth kernels (partial)."
],
"C89": [
"partial",
"False of the code if called before the accept loops have begun (refuted for every number of workers); holds when called after (partial)."
],
"C90": [
"partial",
"False of the code: double close / leak (refuted). Also proved: closed exactly as often as taken, so exactly once iff taken exactly once (C90_closed_as_often_as_taken_partial)."
],
"C91": [
"partial",
"Holds for every handle made by acquire and moves; a default-constructed handle claims ownership (refuted)."
],
"C92": [
"partial",
"False of the code (refuted): done(0) resumes all waiters while the counter is positive. Also proved for every execution: done(0) never changes the counter, and at any counter other than 1 it changes nothing at all (C92_…_partial). C92_done_zero_wakes_everybody_refuted: in every history that reaches counter 1, done(0) resumes any waiter in the queue, with the counter still 1."
],
"C93": [
"partial",
"False of the code (refuted). Also proved for any number of futures: at most one delivery, and the first future asking after fulfilment gets the exact result (C93_…_partial)."
],
"C94": [
"partial",
"False of the code: enqueueing before any worker registered, and dequeueing by an unregistered thread, is undefined behaviour in every state (refuted). Also proved: undefined behaviour happens exactly in the executions with such a misuse, and any thread may enqueue once a consumer registered (C94_…_partial)."
],
"C95": [
"partial",
"False of the code: the destructor removes the lock file whoever holds it (refuted, also in general form). Also proved: exclusion holds in every schedule that destroys objects only at rest (C95_destroyed_at_rest_partial)."
],
"C96": [
"proved",
"all interleavings; progress is stated as enabledness plus a bound of four steps C96_every_schedule: every execution has at most 11 + 3k steps (k suspensions of the callee) and where nothing can happen any more the co_await has completed."
],
"C97": [
"partial",
"False of the code for every value returned with co_return (the promise is fulfilled in return_value(), before the locals are destroyed); proved for bodies ending with an exception and for eager tasks that never suspend."
],
"C98": [
"partial",
"False of the code from every non-worker thread in one schedule; proved when the caller began on a worker or await_ready() found the helper unfinished."
],
"C99": [
"proved",
"Invariant over all proper histories (resources alive, copies owned by exactly one batch)."
],
"C100": [
"partial",
"Refuted: assigning to a default-constructed batch is undefined behaviour in every properly reached state (its memory resource dies before the containers using it are assigned); assigning from one with copied arguments to a batch on a user resource makes the later destruction undefined. Proved for two batches on the same user resource."
],
"C101": [
"partial",
"Refuted: every awaitable made by move construction refers to the batch inside its source; awaiting it is undefined behaviour in every reachable state. Proved when awaited in place. In a history in which nothing is moved there is no undefined behaviour, and the operations submitted are those of the awaitables awaited, in that order (C101_never_moved_partial)."
],
"C102": [
"proved",
"For all batches in range: submitted requests and link flags equal the specification's; executing an empty batch is undefined (C102_empty_batch_must_not_be_executed). liburing's prep functions and the kernel's reading of the entries are part of the model."
],
"C103": [
"partial",
"Refuted: from 4 GiB on the kernel is asked for the length modulo 2^32 (0 bytes for exactly 4 GiB), for read/write by an explicit cast, for send/recv by liburing's 32-bit field; offset 2^64-1 means the file position. Proved below 4 GiB."
],
"C104": [
"partial",
"Refuted: the timeout is linked to, and armed with, the last operation only; a batch whose earlier operation blocks never completes, or completes late with success. Proved: batches with one operation (all operation functions) complete by the deadline; longer ones by the deadline or the sum of the earlier operations' durations; operations in time are not disturbed."
],
"C105": [
"partial",
"Proved for every interleaving in which runtime_init() is not called again while mutexes are registered: printing touches living mutexes only, and all those ever acquired. Refuted for a second runtime_init(): a mutex then deregisters from the new runtime only."
],
"C106": [
"partial",
"Refuted: without a runtime, after stop() and during static destruction ~mutex() and the first acquisition terminate the process (a throw out of noexcept code). Proved: while the runtime is up (which only stop() and static destruction end) no operation on a mutex terminates and none is blocked while nothing is being printed; a mutex acquired once can be acquired in every state."
],
"C107": [
"partial",
"Refuted for event loops with at least one component and one worker: the components are destroyed before the workers are stopped. Proved: with stop() or quick_stop() returned before, for any number of loops; a plain pool at any time, whose destructor returns under every schedule; a manually_stop pool that was not stopped never returns."
],
"C108": [
"partial",
"Refuted, each for all continuations: delivered to a worker (self-join: termination or the handler never returns), to a thread writing a log line, to a thread waiting in stop(); during runtime_init() (null or half-built scheduler); in a second runtime (the flag is never reset). Proved: one SIGINT to any other thread while the runtime is up does no harm, and under every schedule the handler and every stop() return within a bounded number of steps with all workers ended; a second SIGINT terminates."
],
"C109": [
"partial",
"Refuted: any worker that finds its own queue empty may take the task. Proved: until taken, the task waits in the queue of the worker it is for; a worker takes a task meant for another one only if its own queue was empty when it began to look."
],
"C110": [
"proved",
"Timed model in which everything but sleeping and executing tasks takes no time. At once, instead of within 500 ms, is refuted (lost notification)."
],
"C111": [
"proved",
"Same timed model; at once, instead of within 500 ms, is refuted (lost notification)."
],
"C112": [
"proved",
"StartUp.v: n workers, start(), latch, listing; termination of start() by a decreasing measure on every maximal run."
],
"C113": [
"partial",
"Refuted for every n>0: the worker reads the size of the vector while start() is still filling it, so the first worker may see 0 (and that read is a data race). Proved: the value of worker w is between w and n, and never changes."
],
"C114": [
"partial",
"Refuted: the attribute object is a local variable of the worker, and its entry stays listed after the worker has ended. Proved: true for all entries as long as no stop has been requested."
],
"C115": [
"partial",
"Refuted: timers are per worker; while the worker on which the coroutine went to sleep executes another task nobody looks at its timer, for any length of time and with the other worker idle. Proved: never handed over before the deadline; overdue only while that worker has been executing one task since before the deadline; then it polls before anything else; then at most half a second until no worker is idle."
],
"C116": [
"partial",
"Refuted: high_resolution_clock is the wall clock; set forward by d it ends a sleep of d at once. Proved for every clock that never gains on real time (it may stop, slow down or be set back)."
],
"C117": [
"partial",
"Proved: stable, non-null, unique among tasks none of which has ended, in every history. Refuted for all ids: the id is the frame's address and is given to a later task once the first has ended."
],
"C118": [
"partial",
"Proved: with the canceller on the worker whose ring holds the operation and the target alive, exactly the target's operation is cancelled and nothing else changes; -ENOENT iff nobody with that id waits on the canceller's ring. Refuted: an operation pending on any other worker's ring is never found; a stale id cancels an unrelated task's operation. Not modelled: several operations of one task at once (multi-operation batches)."
],
"C119": [
"proved",
"Every schedule has at most 3*size+1 steps, cannot get stuck before everything has ended, and can be completed from every point. Model: any free worker may take any queued task; a task that sleeps or does I/O is resumed by the worker it ran on, between two tasks, after a finite time; no exceptions, no spurious wake-ups (C69), pool not stopped. C119_each_task_runs_its_code: every task does its own code, in order, nothing twice and nothing left out."
],
"C120": [
"partial",
"Refuted for every number n of workers: n tasks that call result() on a lazy task can block all workers for good. Proved: complete under every schedule if fewer than n tasks call get() and none sleeps or does I/O; and for every program the only ways to get stuck are that all n workers are inside get(), or that one is whose event loop holds a task (C156)."
],
"C121": [
"partial",
"Proved: exact for every unit and count if and only if the deadline is representable (before 2262), sleep_until late by what passes between the two clock readings. Refuted: duration::max() overflows for every unit at any time after 1970, time_point::max() whenever time passes between the two readings, time_point::min() always."
],
"C122": [
"partial",
"Proved for callables returning eager tasks: every use by a statement of the body finds the callable alive. Refuted for lazy ones: every use finds it gone, in every history (the by-value parameter dies when make_lazy returns). Refuted for uses in destructors of the body's locals, also for eager ones."
],
"C123": [
"proved",
"unique_impl and merge are modelled as the coroutines they are, each call of next_value_async answered by the inner generator (C19), sources finite here. Container push_back and iterator assignment are appending."
],
"C124": [
"proved",
"For arbitrary input generators of the model (sources given by any function, unique and merge of any depth). On ties the second argument comes first (C72)."
],
"C125": [
"partial",
"Refuted: a value is delivered only when a different one or the end arrives, so the last distinct value of a generator that goes on for ever, even the first value of a constant one, is never delivered. Proved: at any moment exactly what unique means on the values read has been delivered but for one held value, none after the end."
],
"C126": [
"partial",
"Proved for connect_get_sock; for bind_get_sock_tcp except for the flags, which are ignored (refuted: no flags argument changes anything). Assumed: unique_posix_fd closes when destroyed, errret_thrower throws on failure (both in toolpex); the frame is not destroyed while an operation is in flight (C90)."
],
"C127": [
"partial",
"All proved except that may_wake_all always returns: it goes round once per task waiting at its begin or added meanwhile, so it returns when nobody adds any more; refuted in general: a task that comes back after being woken keeps it going for ever. The lock-free queue is modelled as an atomic bag."
],
"C128": [
"proved",
"Over the atomic-step model of the mutex (C01), sequentially consistent memory; the discipline that data is touched only while the lock is held is the client's and is a guard of the action steps."
],
"C129": [
"partial",
"Proved for every history, waiting readers included, that does not hit one of the two defects of C04. Refuted in general: a reader that had to wait sees a value change under its lock."
],
"C130": [
"proved",
"Schedules of one thread; the waiting queue of moodycamel is FIFO for a single producer and does not fail spuriously on the thread that fills it (assumed). With two threads: overtaking (C130_two_threads_overtaking) and lost wake-up (C02)."
],
"C131": [
"proved",
"Happens-before over the positions of a record of the memory operations (one atomic variable; queues and scheduler synchronise what is passed through them: trusted). C131_each_is_needed: weakening any of the three orders gives an execution with a race."
],
"C132": [
"proved",
"Loads may return stale values within coherence (a hypothesis that states what C++ guarantees); C132_each_is_needed: weakening any of the three orders gives an unordered execution; C132_unordered_add: the ordering of add() before wait() is needed. The restriction on add() during a draining done() is needed because of C45."
],
"C133": [
"partial",
"Refuted in both ways in which wait() completes: done() still reads the waiting queue after the decrement that lets the waiter go on. Proved: safe if all done() calls have returned, and always on one worker."
],
"C134": [
"partial",
"Refuted: unlock() still uses the flag and the queue after the clear that lets the next owner in. Proved: safe if all unlock() calls have returned, and always on one worker."
],
"C135": [
"proved",
"Mutex/Programs.v: one step per operation, proved to be a sequence of steps of Mutex/Model.v on one thread (C135_refines_the_model). The scheduler's queue is left open (any ready task may be picked); with two workers the lost wake-up of C02 applies."
],
"C136": [
"proved",
"WaitGroup/Single.v, over WaitGroup/Model.v restricted to one thread (the next step belongs to the coroutine that is inside an operation). With several workers C06 and C07 say what may be lost."
],
"C137": [
"partial",
"Proved: polling ends (C137_polling_ends). Refuted: the waiters are not told (C137_cancel_strands_waiters_refuted, nobody destroys an object). That cancel_all_polling() blocks its own thread in item.get() until the pollers ended is C157."
],
"C138": [
"proved",
"Counted over every history of the thread pool model (Turns.v)."
],
"C139": [
"proved",
"Structured/: one step per operation of a mutex, group or future; C139_refines_the_models proves that every such run is, for each mutex, group and future, a run of Mutex/Model.v, WaitGroup/Model.v (one thread; the total added to a group below 2^64) and Future/Model.v. The scheduler's queue is left open (any ready task may be picked). Tasks do not throw (C96 has exceptions); with two workers the lost wake-ups of C02, C06 and C07 apply."
],
"C140": [
"partial",
"Proved for all accesses of the bodies and for the destruction of a suspended body, without using the edges of the spin lock or of m_finalized. Refuted for the local variables of a body that has ended: their destruction races with the consumer. Trusted: enqueueing into the scheduler happens before the resumption."
],
"C141": [
"proved",
"Weak/Future.v over the step relation of Future/Model.v; trusted: std::mutex (unlock synchronizes with later lock); edges through the scheduler are not needed. What the task does after its result was stored (destruction of its locals after co_return, C97) is not ordered with the consumer: C141_locals_race_refuted."
],
"C142": [
"partial",
"EventLoop/Callbacks.v. Exclusion of preparation and stability of the list proved for every behaviour of the callbacks. That calls return is proved for callbacks that call nothing of the container (C142_calls_return_partial: completion, bound on steps, no deadlock) and refuted otherwise: a callback that adds a loop, or a preparation that asks the container anything, blocks for good in every continuation, and with it every later add_loop() and preparation, or every later call (C142_blocked_for_good and the two _refuted theorems). Formally such a call is undefined behaviour of std::shared_mutex; the model takes the usual implementation, which blocks. m_attrs is keyed by the calling thread."
],
"C143": [
"partial",
"First part proved with the accesses to the mark taken one at a time (C143_no_poll_after_quick_stop_partial). Second part refuted: m_cleanning is a plain bool written under a shared lock only; a reachable state has both accesses next (C143_flag_race_refuted)."
],
"C144": [
"partial",
"Weak/Self.v. Ordering proved for every kind of hand-over (C144_never_races_with_itself, C144_sees_its_creator, C144_sees_its_waker); trusted: putting an item into a concurrent queue synchronizes with taking it out, unlock with later lock. Refuted for the one access await_suspend() makes after the hand-over, in acquire_shared() (C144_acquire_shared_refuted, cf. C47)."
],
"C145": [
"proved",
"Structured/Scoped.v is a machine with scopes and exceptions whose mutex/group/task operations are those of Structured/Model.v (refinement to the class models: Structured/Refine.v). C145_completes: bound and exact results, given by a scheduler-independent big-step semantics (ScopedSpec.v means). C145_leaves_nothing, C145_exceptions_arrive, C145_order_does_not_matter, C145_no_misuse; C145_case has three tasks that throw under locks and report to a group. Stated for one worker: with several workers a result is delivered before the task's locals are destroyed (C97)."
],
"C146": [
"proved",
"Calls/Model.v: a stack of coroutine frames, threads with C++ stacks (an eager callee runs on top of its caller), the await_ready/await_suspend/set_value race, exceptions; Calls/Spec.v gives the meaning as function calls. C146_like_calls, C146_completes, C146_one_worker; C146_destructors_late_refuted shows that with two workers a destructor does come late (C97), which is why the claim leaves that open; C146_quick_start is the README program and C146_example_main is example/main.cc for any number of iterations and workers. Assumes that the queue hands out every task once (C14) in any order and that result() is not woken spuriously (C69)."
],
"C147": [
"partial",
"Proved: C147_in_order_of_one_thread and C147_not_forgotten (any number of workers), C147_one_turn_each and C147_two_turns_each (one worker, nothing enqueued from outside meanwhile). False otherwise, because nothing orders what different threads enqueued: C147_task_of_main_refuted (one worker, two tasks that yield, a third started from main() never runs; with moodycamel's choice of the longest list this is what happens) and C147_two_workers_refuted."
],
"C148": [
"proved",
"C148_deterministic, C148_completes: every program of Spec.v in which every awaited future exists (wf), every number of workers. The order in which different coroutines do things varies (C148_case shows one that is not the sequential one), what they do does not. The queue hands out tasks in any order, nobody stops the pool; locals and frames are in C17, C146. C148_futures_refine: what such a program does with any of its futures is a run of Future/Model.v (C09, C10) that ends in the matching state."
],
"C149": [
"partial",
"Weak/SharedMutex.v, over SharedMutex/Model.v: the operations of every step on m_lock, the scheduler and the data; happens-before from program order, std::mutex and the scheduler's queue only. C149_accesses_happen_before_each_other_partial holds for every history that does not hit one of the two defects of C04; C149_accesses_happen_before_each_other_refuted: with the defect of C04 a reader and a writer race. The read/write order of two readers is, rightly, open. Trusted: std::mutex and the scheduler's queue synchronise."
],
"C150": [
"partial",
"ThreadPool/Health.v: every access to the counters is a step. Proved for any number of workers: no worker executes a task when it is printed (C150_nobody_works), two reports are 15 s apart if nobody sets the system clock (C150_reports_apart), its worker has looked in vain more often than there are workers (C150_looked_in_vain). C150_idle_refuted: it is printed while a task waits for a timer or for I/O (has_pending_event() is never overridden), while a task is already enqueued, and a moment after a task was executed (the condition looks at the last report, not at the last activity)."
],
"C151": [
"proved",
"Weak/MutexGraph.v: executions are graphs (sequenced-before, reads-from, modification order) with the axioms of the C++ standard for one atomic variable (read-modify-writes read the modification before them, coherence, no cycle in happens-before). C151_every_execution_is_an_interleaving (linear extension of happens-before and modification order, Common/LinExt.v, simulated step by step by Mutex/Model.v), C151_no_data_race, C151_mutual_exclusion. So the interleaving semantics used in the other theorems about the mutex is no restriction. Trusted: what is put into the moodycamel queue or the scheduler is taken out at most once, and happens before."
],
"C152": [
"proved",
"Weak/WaitGroupGraph.v: executions are graphs (sequenced-before, reads-from, modification order of m_count) with the standard's axioms: read-modify-writes read the modification before them, the four coherence requirements, no cycle in happens-before; release sequences. C152_join_visibility, C152_join, proved on the graphs directly, with no interleaving (a resumption is shown to follow the taking of the handle of the same co_await; the loop that takes it to be that of a done() which read 1). Trusted: what is put into the moodycamel queue or the scheduler is taken out at most once, and happens before."
],
"C153": [
"partial",
"Task/Teardown.v. False as stated: a coroutine that is in a co_await when stop() returns is never destroyed: its frame holds the future, the future the shared state, and the shared state (m_waiting) owns the frame; task_on_the_fly.h 14-27 says the destructor will ensure destruction (C153_all_destroyed_refuted; C153_awaiting_frame_never_destroyed for every such coroutine and every continuation). Proved: C153_destroyed_at_most_once (no frame twice, none that is owned elsewhere, no reference given back that was not taken, in all executions), C153_teardown_ends (bounded, and can go on until all is torn down), C153_survivors (an exact characterisation: a frame is left if and only if it belongs to a self-sustaining set of awaiting coroutines and lazy tasks when stop() returns), C153_all_destroyed_partial (if nobody is in a co_await of a future at that moment, every frame is destroyed). Assumed: destroying a toolpex::callback_promise does not call its callback; two coroutines do not await one future (C93)."
],
"C154": [
"partial",
"ThreadPool/Results.v, over ThreadPool/Model.v. Proved: C154_answers (value or exception of the only execution, after it ended; broken_promise exactly after destruction and without execution, ever), C154_once, C154_get_returns (get() returns after execution or destruction), C154_exceptions_contained (log exactly for functors without a future; with any other results the same execution is possible with the same states of the pool), C154_answered_by_stop_partial (if after stop() was called only running functors enqueue and nobody calls quick_stop(), every functor accepted has been executed when stop() has returned). Refuted: C154_stop_answers_refuted: enqueue() after a completed stop() is accepted (C16), and the owner of the pool, in get(), waits in every continuation (C154_owner_waits_forever in general). Trusted: std::packaged_task and std::future as in the standard."
],
"C155": [
"proved",
"Model ThreadPool/WeakStop.v: as ThreadPool/Model.v without quick_stop(), plus per-thread knowledge of enqueued functors; answers of size_approx()/try_dequeue() may be out of date as far as that knowledge allows. before (inductive) is happens-before. C155_happens_before_is_needed shows that order in time is not enough. Termination of the workers is not part of it."
],
"C156": [
"partial",
"Refuted: in every program, for any number of workers and under every schedule, a task that calls get() on an eager task which begins by sleeping (or I/O) never ends: the awaited task is in the event loop of the blocked worker, and nobody else looks there (C156_get_of_eager_sleeper_refuted; C156_one_get_blocks_refuted: all other workers idle, the program stuck). Proved: as long as a worker is not inside get(), only such a task can stop the program (C156_only_own_loops_partial)."
],
"C157": [
"partial",
"Refuted: called on a worker (a dir_mutex that dies in a coroutine) while a poller of the object is asleep in that worker's timer, the call never returns, for any number of workers and under every schedule (C157_own_timer_refuted); nor do the calls when every worker is in one with a live poller, e.g. the only worker (C157_all_workers_refuted); nor when a poll has failed: get() throws inside a noexcept function and std::terminate ends the program (C157_failed_poll_refuted, C157_failed_poll_case). Proved: a call waits for at most to_come steps, a number no other step raises, and each step it waits for lowers (C157_bounded_partial); if calls are made outside the pool and no poll fails such a step is possible until the call has returned (C157_returns_outside_partial). A call waits for exactly the pollers of its object started since the last call (C157_waits_for_all_partial)."
],
"C158": [
"proved",
"Weak/Stop.v: happens-before over program order, join and call_once (both environment), any number of workers and callers."
],
"C159": [
"proved",
"Weak/Functors.v: happens-before over program order, the queue's hand-over and std::packaged_task/std::future (both environment)."
],
"C160": [
"partial",
"Weak/Timers.v. False of the code: add_event() in a thread that is no worker inserts into the unordered_map under the shared lock while workers read it (C160_foreign_thread_refuted); and by the standard's reading, in which operator[] of an unordered_map counts as a modification even if the key is present, two workers race (C160_operator_brackets_refuted). Proved for programs whose timers are added by workers, with a map whose operator[] only reads if the key is present (libstdc++)."
],
"C161": [
"partial",
"IoUring/Alive.v. False of the code when a worker ends while an operation of its ring is in the kernel: io_uring_queue_exit() does not wait for the kernel, and m_opreps destroys the frames right after it (C161_stop_refuted). Proved for executions in which no worker ends with operations in the kernel, and for every execution on a kernel whose teardown is synchronous."
]
}