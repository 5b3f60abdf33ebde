{"id": "C01", "title": "mutex: mutual exclusion", "statement": "If one coroutine has obtained a koios::mutex (via co_await m.acquire() or a successful try_acquire()) and has not released it yet, no other coroutine obtains it: at every instant at most one coroutine is between the completion of its acquire and its unlock.", "quantifier": "every number of coroutines, every interleaving of the atomic steps of acquire / try_acquire / unlock, every order in which the waiting queue hands out waiters", "why_tests_cant": "the critical windows are single atomic instructions inside acquire/release; a unit test samples a handful of schedules", "anchors": ["include/koios/coroutine_mutex.h: mutex", "src/coroutine_mutex.cc: mutex::hold_this_immediately, add_waiting, release, try_wake_up_next", "include/koios/acq_lk_aw.h: acq_lk_aw"]}
{"id": "C02", "title": "mutex: no lost wake-up", "statement": "A coroutine that suspends in co_await m.acquire() is eventually resumed as owner provided every owner eventually releases: in particular there is no reachable situation in which the mutex is free, no release is in progress and a coroutine stays suspended waiting for it.", "quantifier": "every interleaving of waiters and releasers", "why_tests_cant": "a lost wake-up needs a waiter pre-empted exactly between its failed test-and-set and its enqueue; tests do not hit that window reproducibly", "anchors": ["src/coroutine_mutex.cc: mutex::add_waiting, release, try_wake_up_next", "include/koios/acq_lk_aw.h: acq_lk_aw::await_ready, await_suspend"]}
{"id": "C03", "title": "lock objects release exactly once", "statement": "Over the whole life of any set of unique_lock/shared_lock handles, however they are moved, assigned, explicitly unlocked, re-locked and destroyed, each acquisition of the underlying mutex is released exactly once, and never by a handle that does not own it.", "quantifier": "every finite program of construct / lock / unlock / move-construct / move-assign (including self-assignment) / destroy over any number of handles and mutexes", "why_tests_cant": "the space of handle programs is infinite; double release shows only for particular move/unlock combinations", "anchors": ["include/koios/lock_base.h: lock_base", "include/koios/unique_lock.h: unique_lock", "include/koios/shared_lock.h: shared_lock"]}
{"id": "C04", "title": "shared_mutex: readers and writers exclude each other", "statement": "While a coroutine holds a koios::shared_mutex exclusively no other coroutine holds it in any mode; several coroutines may hold it shared at once, but never together with an exclusive holder.", "quantifier": "every number of readers and writers, every order of acquire, suspension, wake-up and release", "why_tests_cant": "needs particular wake-up orders among three or more coroutines; the state space of histories is unbounded", "anchors": ["include/koios/coroutine_shared_mutex.h: shared_mutex", "src/coroutine_shared_mutex.cc"]}
{"id": "C05", "title": "shared_mutex: waiters make progress", "statement": "When every coroutine that was granted a shared_mutex has released it, the mutex is free again and no coroutine is left suspended on it.", "quantifier": "every history of acquires and releases by any number of readers and writers", "why_tests_cant": "stuck states appear only after specific histories (a reader that had to wait, then released) and show up as hangs", "anchors": ["src/coroutine_shared_mutex.cc: shared_mutex::release, try_wake_up_next_impl, try_wake_up_shr_impl, try_wake_up_uni_impl"]}
{"id": "C06", "title": "wait_group: wait() does not complete early and does not resume twice", "statement": "co_await wg.wait() completes without suspending iff the counter is zero at that moment; a suspended waiter is resumed only by a done() that brings the counter to zero, and is resumed at most once.", "quantifier": "every interleaving of add, done and wait by any number of coroutines", "why_tests_cant": "depends on the interleaving of counter updates and queue operations", "anchors": ["include/koios/wait_group.h: wait_group::add, done, wait, await_ready, await_suspend"]}
{"id": "C07", "title": "wait_group: every waiter is released", "statement": "Once the counter has come back to zero and every add/done/wait call has returned, no coroutine remains suspended in wait().", "quantifier": "every interleaving of add(i), done(j), wait by any number of coroutines, every positive i, j", "why_tests_cant": "requires pre-empting a waiter between the counter check and its registration, or done(n) with n>1", "anchors": ["include/koios/wait_group.h: wait_group::done, await_ready, await_suspend"]}
{"id": "C08", "title": "wait_group_guard is balanced", "statement": "A wait_group_guard's registration is undone exactly once, whatever sequence of constructions, move constructions, move assignments to empty guards and destructions the guard goes through: after all guards are gone the counter is what it was before; no program undoes more than was registered.", "quantifier": "every finite program of guard construction, move-construction, move-assignment and destruction over any number of guards and groups", "why_tests_cant": "needs all guard programs; leaks appear only with particular move patterns", "anchors": ["include/koios/wait_group.h: wait_group_guard"]}
{"id": "C09", "title": "future/promise: the awaiting coroutine gets the value exactly once", "statement": "If a promise is fulfilled (value or exception) and a coroutine co_awaits its future, the coroutine is resumed exactly once and obtains exactly the stored value or exception, no matter whether fulfilment happens before, during or after the co_await.", "quantifier": "every interleaving of the promise side's and the awaiting side's steps", "why_tests_cant": "the two-sided race has to be checked for every order of the individual lock/unlock steps", "anchors": ["include/koios/future.h: impl::future_impl, future, promise, shared_state", "include/koios/future_aw.h: future_aw"]}
{"id": "C10", "title": "future: get_nonblk() and ready()", "statement": "get_nonblk() returns the value iff it was stored and not yet taken, throws otherwise, and never blocks; ready() reports exactly whether a result was stored and does not change what later get_nonblk() calls do.", "quantifier": "every sequence of set_value/set_exception, ready, get, get_nonblk calls", "why_tests_cant": "sequences of calls are unbounded and the failing ones end in a hang", "anchors": ["include/koios/future.h: future_impl::ready, get, get_nonblk", "include/koios/std_future_extension.h"]}
{"id": "C11", "title": "timer: never early, exactly once, nothing lost", "statement": "As long as the timer loop is used by worker threads and stop() has not been called: a coroutine sleeping until time T is resumed by the first poll of its thread's timer at a time >= T, never by a poll before T, and exactly once; other sleepers are unaffected.", "quantifier": "every set of deadlines (with duplicates), every order of insertion, every sequence of poll times", "why_tests_cant": "the binary-heap bookkeeping must be right for every heap shape and every mix of insert/poll", "anchors": ["include/koios/timer.h: timer_event, timer_event_loop_impl", "src/timer.cc: timer_event_loop_impl::add_event_impl, do_occured_nonblk"]}
{"id": "C12", "title": "timer: sleepers expiring in one poll are resumed in deadline order", "statement": "If one poll finds several sleepers expired, they are handed to the scheduler in non-decreasing order of deadline.", "quantifier": "every heap of deadlines and every poll time", "why_tests_cant": "order errors show only when at least two timers expire in one poll, which a test cannot force", "anchors": ["src/timer.cc: timer_event_loop_impl::do_occured_nonblk"]}
{"id": "C13", "title": "timer: idle time never overshoots the next deadline", "statement": "Until stop() is called, the maximum sleep time the timer reports to an idle worker is exactly the distance to the earliest pending deadline of that worker (0 if it has passed), and the 'infinite' duration iff nothing is pending.", "quantifier": "every set of pending deadlines and every current time", "why_tests_cant": "all heap shapes and times", "anchors": ["src/timer.cc: timer_event_loop_impl::max_sleep_duration", "include/koios/timer.h: timer_event_loop"]}
{"id": "C14", "title": "work-stealing queue: exactly-once delivery", "statement": "Every task put in the queue comes out exactly once: any sequence of enqueue/dequeue by any registered threads returns each enqueued task at most once, never invents one, and while nothing is in progress a dequeue by a registered thread returns nothing only if the queue is empty, wherever the tasks were placed.", "quantifier": "every number of threads, every placement, every sequence of operations", "why_tests_cant": "conservation is over unbounded operation histories and any stealing pattern", "anchors": ["include/koios/work_stealing_queue.h: work_stealing_queue"]}
{"id": "C15", "title": "thread_pool: graceful stop executes everything accepted before it", "statement": "After stop(), the workers return only when every task accepted before has been executed, including tasks those tasks enqueue meanwhile; every accepted task is executed at most once.", "quantifier": "every number of workers, every interleaving of enqueue, dequeue, stop and task execution, every spawn tree", "why_tests_cant": "quantifies over all schedules of the worker loop against stop()", "anchors": ["include/koios/thread_pool.h: thread_pool", "src/thread_pool.cc: thread_pool::consumer, done, stop, quick_stop"]}
{"id": "C16", "title": "thread_pool: an enqueue after stop is refused, not lost", "statement": "A task handed to the pool is either eventually executed or the enqueue call reports failure; no task is accepted and silently never executed.", "quantifier": "every interleaving of enqueue with stop/quick_stop and worker termination", "why_tests_cant": "the loss window is a race between enqueue and the workers' final emptiness check", "anchors": ["include/koios/thread_pool.h: thread_pool::enqueue", "src/thread_pool.cc: consumer, done", "include/koios/task_scheduler.h: task_scheduler::enqueue"]}
{"id": "C17", "title": "task: each coroutine is run at most once and destroyed exactly once", "statement": "Through any sequence of moves, run(), run_and_get_future(), co_await and destruction of task handles and task_on_the_fly handles in which handles are run or called only while they own their coroutine (operator bool), a coroutine frame is started at most once, is never destroyed twice and never resumed after destruction, a suspended frame has exactly one owner, and every frame whose handles are gone has been destroyed or is running.", "quantifier": "every finite program over any number of task / task_on_the_fly handles and frames", "why_tests_cant": "use-after-free/double-free depends on the exact sequence of ownership transfers", "anchors": ["include/koios/task.h: task", "include/koios/task_on_the_fly.h: task_on_the_fly", "include/koios/waiting_handle.h"]}
{"id": "C18", "title": "task_release_once: exactly one of the racing releasers gets the task", "statement": "If several parties call release() on the same task_release_once, exactly one receives the task and all others receive nothing.", "quantifier": "every number of callers and every interleaving", "why_tests_cant": "race between atomic flag and move", "anchors": ["include/koios/task_release_once.h"]}
{"id": "C19", "title": "generator: values arrive in yield order, then end", "statement": "For a generator whose body does not throw: repeated co_await gen.next_value_async() returns exactly the sequence of values the body co_yields, in order and without duplicates, then nullopt for every further call; every call returns; the body runs only on demand, at most one value ahead of what was requested.", "quantifier": "every yield sequence and every interleaving of consumer request and producer step", "why_tests_cant": "the hand-off between two coroutines on different threads has unboundedly many schedules", "anchors": ["include/koios/generator.h: generator, generator_promise_type", "include/koios/generator_shared_state.h"]}
{"id": "C20", "title": "generator: unique() has the semantics of std::unique", "statement": "Filtering a generator with unique() yields, for each maximal run of equivalent consecutive values, exactly the first of the run, in order.", "quantifier": "every input sequence and every equivalence predicate", "why_tests_cant": "all sequences and predicates", "anchors": ["include/koios/generator.h: unique_impl"]}
{"id": "C21", "title": "generator: merge() of two sorted generators is a sorted merge", "statement": "merge(a,b) yields every value of both inputs exactly once, each input in its own order; if both inputs are sorted under the comparator (a strict weak order) the output is sorted.", "quantifier": "every pair of input sequences and every strict weak order", "why_tests_cant": "all sequences, all comparators, tie behaviour", "anchors": ["include/koios/generator.h: merge"]}
{"id": "C22", "title": "io_uring: a batch resumes its coroutine exactly once, after all completions, with its own results", "statement": "A coroutine that executes an operation batch is resumed exactly once, precisely when the completion of every operation of its batch has been received; it never sees completions of another batch, and no completion is lost or duplicated.", "quantifier": "every number of concurrently outstanding batches of any length, every completion order", "why_tests_cant": "completions interleave arbitrarily across batches", "anchors": ["src/iouring.cc: iouring_event_loop_perthr", "include/koios/iouring.h", "src/iouring_op_batch_execute_aw.cc", "src/iouring_op_batch_rep.cc"]}
{"id": "C23", "title": "op_batch: operations keep submission order, are linked, and a timeout is always last", "statement": "Whatever the order in which operations and a timeout are added to a batch, what is submitted is the operations in the order they were added, each linked to the next, followed by at most one timeout entry carrying the most recently given deadline; the last entry is not linked.", "quantifier": "every finite sequence of prep_* and timeout calls", "why_tests_cant": "all sequences of builder calls", "anchors": ["src/iouring_op_batch.cc: op_batch", "src/iouring_op_batch_rep.cc: op_batch_rep::get_sqe, set_timeout", "src/iouring_op_batch_execute_aw.cc"]}
{"id": "C24", "title": "op_batch: the k-th result is the result of the k-th operation", "statement": "After execution, the k-th return slot of the batch is the completion of the k-th submitted operation.", "quantifier": "every batch, every completion order the kernel may produce", "why_tests_cant": "the kernel's completion order is not under a test's control", "anchors": ["include/koios/iouring_op_batch_rep.h: op_batch_rep::add_ret, begin/front", "src/iouring.cc: iouring_event_loop_perthr::do_occured_nonblk", "include/koios/iouring_single_op_aw.h"]}
{"id": "C25", "title": "I/O result decoding", "statement": "The result object of an I/O operation reports success iff the kernel's return value is non-negative; nbytes_delivered is the byte count on success and 0 on failure; get_fd and friends throw exactly on failure.", "quantifier": "every 32-bit return value, every value of errno in the thread", "why_tests_cant": "depends on leftover errno state and on all return codes", "anchors": ["src/iouring_ioret.cc", "include/koios/iouring_ioret.h"]}
{"id": "C26", "title": "append_all writes the whole buffer exactly once, in order", "statement": "On a device where each write appends (pipe, socket, O_APPEND file): if append_all completes without error, the bytes accepted by write(), in order, are exactly the buffer: no byte skipped, repeated or reordered, whatever short writes occur; on an error it stops and what was accepted is a prefix of the buffer. It ends after at most one write per byte if every successful write accepts at least one byte.", "quantifier": "every buffer and every sequence of short writes / errors the kernel may return", "why_tests_cant": "short-write patterns are unbounded and not reproducible in tests", "anchors": ["src/iouring_awaitables.cc: append_all"]}
{"id": "C27", "title": "recv_fill_buffer / read_fill_buffer fill a prefix in order", "statement": "If no awaited operation throws: the returned byte count n satisfies n <= buffer size, exactly the first n bytes of the buffer have been filled with the received bytes in order (for a file: the bytes from the given offset on), and n < size implies an error was reported or the deadline passed.", "quantifier": "every sequence of short reads, timeouts, EOFs and errors, every clock behaviour", "why_tests_cant": "short-read patterns and clock values are unbounded", "anchors": ["src/iouring_awaitables.cc: recv_fill_buffer_impl/after_read_or_recv, read_fill_buffer"]}
{"id": "C28", "title": "unique_file_state::append appends the buffer exactly once", "statement": "A completed append() has written exactly the given bytes once, in order, whatever short writes occur.", "quantifier": "every buffer and every sequence of short writes", "why_tests_cant": "short writes on regular files practically never occur in tests", "anchors": ["src/unique_file_state.cc", "include/koios/unique_file_state.h"]}
{"id": "C29", "title": "expected: and_then/transform-style combinators obey the monad laws and propagate errors", "statement": "and_then on a value applies the function to that value exactly once and returns its result; on an error it returns that error unchanged without calling the function; chains associate.", "quantifier": "every value, error and function", "why_tests_cant": "universally quantified algebraic laws", "anchors": ["include/koios/expected.h: expected"]}
{"id": "C30", "title": "dir_mutex: at most one holder per directory", "statement": "For any number of dir_mutex objects (in any number of processes) on the same directory, at most one coroutine holds the lock at any time, as long as no dir_mutex object is destroyed while others are in use.", "quantifier": "every number of instances and coroutines, every interleaving of lock, poll, unlock", "why_tests_cant": "cross-process interleavings of file creation/deletion and polling", "anchors": ["src/dir_mutex.cc", "include/koios/dir_mutex.h", "include/koios/async_awaiting_hub.h"]}
{"id": "C31", "title": "dir_mutex: waiters make progress", "statement": "If every holder eventually unlocks, the lock file does not remain without a holder and every waiting coroutine eventually obtains the lock.", "quantifier": "every interleaving of lock, poll and unlock", "why_tests_cant": "needs a poller that outlives its waiter; shows up as a hang", "anchors": ["src/dir_mutex.cc: polling_lock_file, unlock, hold_this_immediately"]}
{"id": "C32", "title": "user event loops: each loop is prepared exactly once on each worker thread", "statement": "Whatever the order in which user loops are added and worker threads prepared, as long as no worker thread has ended, each user loop's thread preparation runs exactly once per worker thread.", "quantifier": "every interleaving of add_loop and thread_specific_preparation calls", "why_tests_cant": "all orders of registration", "anchors": ["src/user_event_loop.cc", "include/koios/user_event_loops.h"]}
{"id": "C33", "title": "event loop aggregate polls every loop and sleeps no longer than any allows", "statement": "One round of polling polls every component loop exactly once, in order, whatever the earlier ones answer; in a process with one event loop the idle time offered to a worker is the minimum of what all component loops allow; after stop() adding an event is refused.", "quantifier": "every number of component loops and every answer they give", "why_tests_cant": "all combinations of component answers", "anchors": ["include/koios/event_loop.h: event_loop"]}
{"id": "C34", "title": "for_each_dispatch_evenly distributes evenly and completely", "statement": "Each element is dispatched to exactly one of the n functions, and after any number of dispatches the loads of any two of them differ by at most one.", "quantifier": "every sequence length, every n >= 1, every interleaving of concurrent dispatchers", "why_tests_cant": "all lengths and interleavings", "anchors": ["include/koios/functional.h: for_each_dispatch_evenly / dispatcher"]}
{"id": "C35", "title": "co_await_all returns results in argument order; for_each runs every element once", "statement": "co_await_all(f1..fn) yields exactly the list of the n results in the order of the futures, or the exception of the first failing one, whatever order they complete in, and always can complete; for_each applies the function to no element twice, and to every element if it returns normally.", "quantifier": "every number of futures and every completion order", "why_tests_cant": "completion orders are unbounded", "anchors": ["include/koios/functional.h: co_await_all, for_each"]}
{"id": "C36", "title": "tcp server: address literal parsing", "statement": "Constructing a tcp server from the literal \"ADDR:PORT\", PORT a decimal number in 0..65535, listens on exactly that address and port (ADDR being everything before the last colon, so IPv6 addresses work); a literal without a port, or with an address that is refused, throws.", "quantifier": "every string", "why_tests_cant": "all strings", "anchors": ["src/tcp_server.cc", "include/koios/tcp_server.h"]}
{"id": "C37", "title": "tcp server: every client is handed over exactly once", "statement": "Every connection accepted by the tcp server is handed to the callback exactly once, in every schedule, however the server is used.", "quantifier": "every interleaving of start, stop, accept-loop start-up and until_done", "why_tests_cant": "start-up races", "anchors": ["src/tcp_server.cc: tcp_server", "include/koios/tcp_server.h"]}
{"id": "C38", "title": "deplete_send_buffer reports success only when nothing is outstanding", "statement": "For a timeout such that now + timeout is representable: it returns true exactly if its last look at the socket's outgoing queue found it empty, an error code exactly if the last ioctl failed, and false without error only when less than one polling period (1 ms) was left; it polls at most timeout/1ms + 1 times and is over no later than the lateness of one 1 ms sleep after the deadline.", "quantifier": "every sequence of queue lengths the kernel reports, every clock", "why_tests_cant": "kernel-dependent sequences", "anchors": ["src/tcp_util.cc", "include/koios/tcp_util.h"]}
{"id": "C39", "title": "protobuf framing: what is sent is what is received", "statement": "The length prefix round-trips for every size; a message (up to 2^31-1 bytes) framed this way is received intact, and so are any number of messages one after the other, in whatever pieces the kernel delivers the stream and whatever follows, provided no deadline passes while the prefix is read.", "quantifier": "every message size, every pattern of short sends/receives and timeouts", "why_tests_cant": "failure patterns are unbounded", "anchors": ["include/koios/iouring_protobuf.h"]}
{"id": "C40", "title": "exceptions carry the error they were built from", "statement": "Every exception class of the library except uring_exception and socket_exception, constructed from an error code, returns that error code from error_code(), also through a base reference.", "quantifier": "every error code and exception class", "why_tests_cant": "all classes x codes", "anchors": ["include/koios/exceptions.h", "include/koios/error_category.h"]}
{"id": "C41", "title": "scheduler queues are FIFO and the single-threaded scheduler drains everything", "statement": "std_queue_wrapper returns tasks in enqueue order; run() of the single-threaded scheduler executes every enqueued task, including tasks enqueued by running tasks and after a task threw, and returns with an empty queue.", "quantifier": "every sequence of operations and every spawn tree", "why_tests_cant": "unbounded histories", "anchors": ["include/koios/std_queue_wrapper.h", "include/koios/local_thread_scheduler.h", "include/koios/invocable_queue_wrapper.h"]}
{"id": "C42", "title": "io_uring loop: idle back-off is bounded and disabled while I/O is pending", "statement": "Until stop() the idle time the io_uring loop offers is between 0 and 200 ms for every number of consecutive empty polls (including wrap-around of the miss counter), doubles up from 0 with consecutive misses, and is zero whenever an operation is outstanding on the calling thread.", "quantifier": "every number of empty polls, every set of outstanding operations", "why_tests_cant": "counter wrap-around after arbitrarily many polls", "anchors": ["include/koios/iouring.h", "src/iouring.cc: max_sleep_duration, shot_record"]}
{"id": "C43", "title": "cancel requests match what was asked", "statement": "cancel_first(u) cancels exactly one pending operation with user data u if there is one and reports not-found otherwise; op_batch::prep_cancel_all(u) cancels all of them and no other.", "quantifier": "every user data value and every set of pending operations", "why_tests_cant": "depends on pending set", "anchors": ["src/iouring_op_functions.cc: cancel_first, cancel_all", "src/iouring_op_batch.cc: prep_cancel_*"]}
{"id": "C44", "title": "stop operations are idempotent and return only after workers ended", "statement": "Calling stop/quick_stop any number of times from any threads that are not workers performs the shutdown exactly once, terminates nothing, and each call returns only after all workers have ended.", "quantifier": "every interleaving of concurrent stop calls", "why_tests_cant": "call_once races", "anchors": ["src/thread_pool.cc: thread_pool::stop, quick_stop", "include/koios/thread_pool.h"]}
{"id": "C45", "title": "wait_group: a waiter is resumed because the counter reached zero after it began to wait", "statement": "Between the moment a coroutine calls wait() and the moment it is resumed there is a moment at which the counter is zero.", "quantifier": "every interleaving of add, done and wait, including reuse of the group for several rounds", "why_tests_cant": "needs an add and a wait squeezed into another thread's done() loop", "anchors": ["include/koios/wait_group.h: wait_group::done, wake_up_all, wait"]}
{"id": "C46", "title": "shared_mutex::try_acquire obtains a free mutex", "statement": "co_await m.try_acquire() on a shared_mutex nobody holds or waits for yields the lock; it never yields the lock while somebody else holds it.", "quantifier": "every history before the call", "why_tests_cant": "must hold after every history, not only on a fresh mutex", "anchors": ["include/koios/coroutine_shared_mutex.h: shared_mutex::try_acquire", "src/coroutine_shared_mutex.cc: hold_this_immediately", "include/koios/acq_lk_aw.h: try_acq_lk_aw"]}
{"id": "C47", "title": "suspending in acquire_shared does not touch a resumed coroutine", "statement": "While one thread is still executing the suspension of co_await m.acquire_shared(), another thread may already resume that coroutine; the suspending thread then does not access the coroutine's frame or the awaitable stored in it.", "quantifier": "every interleaving of the suspending thread with releases and resumptions on other threads", "why_tests_cant": "the window is a few instructions between the enqueue and the end of await_suspend; the failure is silent memory corruption", "anchors": ["include/koios/acq_lk_aw.h: acq_shr_lk_aw::await_suspend", "src/coroutine_shared_mutex.cc: add_shr_waiting, try_wake_up_next"]}
{"id": "C48", "title": "a descriptor produced by an operation has exactly one owner", "statement": "The descriptor produced by a successful socket/openat/accept operation is closed exactly once over the life of the program if the program takes it from the result object exactly once.", "quantifier": "every sequence of get_fd/get_client calls on the result and destructions of what they return", "why_tests_cant": "a double close only shows if the number is reused in between; must hold for every usage", "anchors": ["src/iouring_ioret.cc: ioret_for_posix_fd_result::get_fd, ioret_for_accept::get_client"]}
{"id": "C49", "title": "fill calls return at end of stream", "statement": "recv_fill_buffer / read_fill_buffer return after the peer closed the connection or the file ended, with or without a deadline.", "quantifier": "every sequence of short reads followed by end-of-file answers, every deadline", "why_tests_cant": "non-termination under a kernel behaviour, for every prefix", "anchors": ["src/iouring_awaitables.cc: recv_fill_buffer, read_fill_buffer, after_read_or_recv"]}
{"id": "C50", "title": "awaiting a timer or IO operation on a stopping runtime fails cleanly", "statement": "If a coroutine awaits a timer or IO operation after stop() was called, the refusal is delivered to the coroutine as an exception and the coroutine stays valid.", "quantifier": "every state in which a coroutine runs and the event loop is in its stopping phase", "why_tests_cant": "needs an await between stop() and the end of the workers; the outcome is undefined behaviour, not a failing assertion", "anchors": ["include/koios/event_loop.h: event_loop::add_event", "include/koios/task_on_the_fly.h: task_on_the_fly", "include/koios/task.h"]}
{"id": "C51", "title": "quick_stop does not bring the process down", "statement": "After quick_stop()/runtime_exit(), tasks that are still running may wake or start other coroutines; these are dropped without std::terminate being called.", "quantifier": "every program state in which quick_stop() was called and a coroutine handle is woken or a task is run", "why_tests_cant": "depends on a running task waking another one in the window after quick_stop()", "anchors": ["include/koios/task_scheduler.h: task_scheduler::enqueue", "include/koios/thread_pool.h: thread_pool::enqueue_no_future", "src/waiting_handle.cc: wake_up"]}
{"id": "C52", "title": "for_each runs the elements in parallel", "statement": "for_each launches the coroutine for every element of the range and only then waits, so that elements run in parallel (as its documentation says).", "quantifier": "every range length, every completion order of the elements", "why_tests_cant": "results are the same sequentially; only overlap in time differs", "anchors": ["include/koios/functional.h: for_each, for_each_dispatch_evenly, co_await_all"]}
{"id": "C53", "title": "for_each_dispatch_evenly distributes the items of each call evenly", "statement": "Each call of for_each_dispatch_evenly spreads its own elements over the worker threads with loads differing by at most one, also when several calls run concurrently.", "quantifier": "every number of items, every interleaving of concurrent calls", "why_tests_cant": "depends on the interleaving of increments of a counter shared by all calls", "anchors": ["include/koios/functional.h: for_each_dispatch_evenly"]}
{"id": "C54", "title": "type-erased queue wrapper destroys its queue exactly once", "statement": "Through any sequence of constructions, moves and destructions of invocable_queue_wrapper objects, each wrapped queue is destroyed exactly once, when its last holder dies; using a wrapper that was not moved from is always valid.", "quantifier": "every finite sequence of constructions, moves, uses and destructions", "why_tests_cant": "double free/leak depends on the exact sequence of moves", "anchors": ["include/koios/invocable_queue_wrapper.h", "src/invocable_queue_wrapper.cc"]}
{"id": "C55", "title": "user event loops: stop() reaches every user loop added before it", "statement": "A user loop receives stop() iff stop() of the event loop is called at some time after the loop was added.", "quantifier": "all histories of add_loop, thread starts and ends, and stop calls", "why_tests_cant": "depends on an add_loop after stop()", "anchors": ["src/user_event_loop.cc: user_event_loops::stop, user_event_loops::add_loop"]}
{"id": "C56", "title": "generator: destruction destroys a suspended body", "statement": "Destroying the generator object while its body is suspended destroys the body (its local variables) before the destructor returns.", "quantifier": "every interleaving of consumer and generator", "why_tests_cant": "needs the consumer to be resumed on another thread between return_void and the end of the coroutine", "anchors": ["include/koios/generator.h: generator_promise_type::return_void"]}
{"id": "C57", "title": "generator: objects own their body exactly", "statement": "Through any sequence of constructions, moves, move assignments to empty generators and destructions of generator objects, every living generator body is held by exactly one object, so it is destroyed when no object holds it any more.", "quantifier": "every finite sequence of constructions, moves, assignments and destructions", "why_tests_cant": "a leak, not a wrong result; depends on the sequence of operations", "anchors": ["include/koios/generator.h: _generator::_type::operator=", "include/koios/generator_shared_state.h"]}
{"id": "C58", "title": "op_batch: a batch can be cleared and executed again", "statement": "After an execution a batch can be cleared, refilled and executed again; the coroutine is resumed exactly when all operations of the new execution completed, and sees only their results.", "quantifier": "all sequences of prep/timeout/clear/execute calls and completion orders", "why_tests_cant": "the outcome depends on the relative sizes of successive executions and on completion order", "anchors": ["include/koios/iouring_op_batch.h:op_batch::clear", "include/koios/iouring_op_batch_rep.h:clear,has_enough_ret", "src/iouring_op_batch_rep.cc:get_sqe", "src/iouring.cc:dealwith_cqe"]}
{"id": "C59", "title": "op_batch: a batch of any size can be executed", "statement": "Executing a batch with any number of operations submits all of them.", "quantifier": "all batch sizes", "why_tests_cant": "tests use small batches; the bound is the submission queue's capacity", "anchors": ["src/iouring.cc:iouring_event_loop_perthr::add_event", "include/koios/iouring.h"]}
{"id": "C60", "title": "io_uring loop: stop takes effect on every worker thread", "statement": "After stop() or quick_stop() of the io_uring loop returned, no worker thread accepts or completes further io_uring operations.", "quantifier": "all threads, all points of the execution at which stop is called", "why_tests_cant": "depends on which thread calls stop and on what the other threads do later", "anchors": ["src/iouring.cc:iouring_event_loop::quick_stop", "include/koios/iouring.h:stop"]}
{"id": "C61", "title": "dir_mutex: unlock() returns", "statement": "Releasing a dir_mutex (guard destructor or unlock()) returns even when other tasks release dir_mutexes at the same time, whatever the number of workers.", "quantifier": "every number of workers >= 1, every number of concurrent unlocks, every schedule", "why_tests_cant": "the deadlock depends on the number of workers and on which tasks happen to unlock simultaneously", "anchors": ["src/dir_mutex.cc: unlock, delete_lock_file", "include/koios/task.h: result", "src/thread_pool.cc: consumer"]}
{"id": "C62", "title": "tcp server: malformed ports in literals are rejected", "statement": "A literal whose port is outside 0..65535, not a number, negative, or followed by junk is rejected.", "quantifier": "every string", "why_tests_cant": "all strings", "anchors": ["src/tcp_server.cc: operator\"\"_tcp_s"]}
{"id": "C63", "title": "tcp server: a started server can be moved", "statement": "Moving a started tcp_server object leaves its behaviour alone: until_done on the new object still waits for stop() and the accept loops.", "quantifier": "every state of the loops at the time of the move", "why_tests_cant": "depends on when the move happens relative to the loops", "anchors": ["src/tcp_server.cc: tcp_server(tcp_server&&)", "include/koios/tcp_server.h"]}
{"id": "C64", "title": "tcp server: stop() ends the accept loops, nothing else does", "statement": "After stop() every accept loop finishes within a bounded number of its own steps, provided the kernel answers its accepts; without stop() no answer of accept ends a loop.", "quantifier": "every schedule, every sequence of accept results, any number of loops", "why_tests_cant": "all schedules and error sequences", "anchors": ["include/koios/tcp_server.h: tcp_loop", "src/tcp_server.cc: stop"]}
{"id": "C65", "title": "timeouts in milliseconds become the right deadline", "statement": "Every function taking a timeout in milliseconds gives its operation the deadline now + timeout whenever that is representable.", "quantifier": "every function with such an overload, every timeout, every clock value", "why_tests_cant": "all 64-bit values", "anchors": ["src/iouring_op_functions.cc", "include/koios/iouring_op_functions.h: connect, accept", "include/koios/iouring_op_batch.h: timeout", "src/iouring_op_batch.cc: timeout", "src/iouring_awaitables.cc: recv_fill_buffer, read_fill_buffer", "src/tcp_util.cc"]}
{"id": "C66", "title": "mutex: try_acquire never waits", "statement": "co_await m.try_acquire() completes at once, never suspends the caller, obtains the lock exactly when nobody owns it, nobody is being handed it and no release is in its wake-up phase, and disturbs no other waiter; co_await m.acquire() that cannot complete at once always becomes a queued waiter. unlock() never waits: it finishes after at most three more steps of its own.", "quantifier": "every reachable state of the mutex, every interleaving", "why_tests_cant": "the answer depends on the exact point other coroutines' releases have reached", "anchors": ["include/koios/acq_lk_aw.h: try_acq_lk_aw", "include/koios/coroutine_mutex.h: mutex::try_acquire, hold_this_immediately"]}
{"id": "C67", "title": "timer: sleepers pending at stop() are still resumed", "statement": "Coroutines that sleep when stop() is called are resumed once their deadline has passed (stop() lets the accepted work finish), and the idle time reported meanwhile does not overshoot their deadlines.", "quantifier": "all histories with a stop() while somebody sleeps", "why_tests_cant": "The failure is an absence of a resumption in every continuation, which no finite test shows.", "anchors": ["include/koios/timer.h: timer_event, timer_event_loop_impl", "src/timer.cc: timer_event_loop_impl::add_event_impl, do_occured_nonblk"]}
{"id": "C68", "title": "timer: usable from any thread", "statement": "A coroutine that runs on a thread which is not a registered worker can sleep.", "quantifier": "all states and threads", "why_tests_cant": "Holds or fails depending on schedules/histories tests do not enumerate; the failing history is rare or is never exercised.", "anchors": ["include/koios/timer.h: timer_event, timer_event_loop_impl", "src/timer.cc: timer_event_loop_impl::add_event_impl, do_occured_nonblk"]}
{"id": "C69", "title": "future: blocking get()", "statement": "get() returns the stored result as soon as the promise is fulfilled, also after ready() was called, and does not return before.", "quantifier": "all histories of one future, spurious wake-ups of the condition variable included", "why_tests_cant": "Spurious wake-ups cannot be provoked; a call that never returns cannot be told from a slow one.", "anchors": ["include/koios/future.h: future_impl::ready, get, get_nonblk", "include/koios/std_future_extension.h"]}
{"id": "C70", "title": "task: misuse of an empty handle is detected", "statement": "run() on a task that was already run or moved from, and calling a moved-from task_on_the_fly, is harmless or reports an error.", "quantifier": "all programs over task handles", "why_tests_cant": "Holds or fails depending on schedules/histories tests do not enumerate; the failing history is rare or is never exercised.", "anchors": ["include/koios/task.h: task", "include/koios/task_on_the_fly.h: task_on_the_fly", "include/koios/waiting_handle.h"]}
{"id": "C71", "title": "generator: an exception in the body reaches the consumer", "statement": "If the generator body throws, the consumer that asked for the value receives the exception (or at least the end of the sequence).", "quantifier": "all schedules, all bodies that end by throwing", "why_tests_cant": "Holds or fails depending on schedules/histories tests do not enumerate; the failing history is rare or is never exercised.", "anchors": ["include/koios/generator.h: generator, generator_promise_type", "include/koios/generator_shared_state.h"]}
{"id": "C72", "title": "generator: merge() is stable like std::merge", "statement": "On ties merge(a,b) yields the values of the first input before the equivalent values of the second.", "quantifier": "all pairs of inputs", "why_tests_cant": "Holds or fails depending on schedules/histories tests do not enumerate; the failing history is rare or is never exercised.", "anchors": ["include/koios/generator.h: merge"]}
{"id": "C73", "title": "I/O results report exactly the kernel error", "statement": "On failure the result object reports exactly the error the kernel returned.", "quantifier": "every negative kernel answer, every value of errno", "why_tests_cant": "Depends on the stale value of errno in the polling thread.", "anchors": ["src/iouring_ioret.cc", "include/koios/iouring_ioret.h"]}
{"id": "C74", "title": "user event loops: a loop can be added at any time", "statement": "Adding a user loop after a worker thread has ended is safe.", "quantifier": "all histories", "why_tests_cant": "Holds or fails depending on schedules/histories tests do not enumerate; the failing history is rare or is never exercised.", "anchors": ["src/user_event_loop.cc", "include/koios/user_event_loops.h"]}
{"id": "C75", "title": "event loops do not disturb each other; quick_stop refuses events", "statement": "Two event loops of one process compute their idle times independently; after quick_stop() adding an event is refused.", "quantifier": "all interleavings of workers of two event loops", "why_tests_cant": "Holds or fails depending on schedules/histories tests do not enumerate; the failing history is rare or is never exercised.", "anchors": ["include/koios/event_loop.h: event_loop"]}
{"id": "C76", "title": "for_each runs every element even if one throws", "statement": "for_each applies the function to every element exactly once also when the function throws for some element.", "quantifier": "all ranges and schedules", "why_tests_cant": "Holds or fails depending on schedules/histories tests do not enumerate; the failing history is rare or is never exercised.", "anchors": ["include/koios/functional.h: co_await_all, for_each"]}
{"id": "C77", "title": "io_uring loop: no idling with I/O outstanding while stopping", "statement": "The idle time is zero while an operation is outstanding also after stop() was called.", "quantifier": "all reachable states", "why_tests_cant": "Holds or fails depending on schedules/histories tests do not enumerate; the failing history is rare or is never exercised.", "anchors": ["include/koios/iouring.h", "src/iouring.cc: max_sleep_duration, shot_record"]}
{"id": "C78", "title": "stop() can be called from a task", "statement": "A task may stop the pool it runs on.", "quantifier": "all schedules", "why_tests_cant": "Holds or fails depending on schedules/histories tests do not enumerate; the failing history is rare or is never exercised.", "anchors": ["src/thread_pool.cc: thread_pool::stop, quick_stop", "include/koios/thread_pool.h"]}
{"id": "C79", "title": "cancel_all and number_canceled", "statement": "The free function cancel_all(u) cancels all operations with user data u; cancel_any(fd,u) only those on that descriptor; number_canceled() is the number of operations cancelled.", "quantifier": "every set of pending operations", "why_tests_cant": "Holds or fails depending on schedules/histories tests do not enumerate; the failing history is rare or is never exercised.", "anchors": ["src/iouring_op_functions.cc: cancel_first, cancel_all", "src/iouring_op_batch.cc: prep_cancel_*"]}
{"id": "C80", "title": "wait_group_guard: assignment over a live guard", "statement": "Move assignment over a guard that holds a registration undoes that registration; self-assignment is harmless.", "quantifier": "all guard programs", "why_tests_cant": "Holds or fails depending on schedules/histories tests do not enumerate; the failing history is rare or is never exercised.", "anchors": ["include/koios/wait_group.h: wait_group_guard"]}
{"id": "C81", "title": "uring_exception and socket_exception carry their error", "statement": "error_code() of a uring_exception or socket_exception is the error it was built from.", "quantifier": "all error codes", "why_tests_cant": "Holds or fails depending on schedules/histories tests do not enumerate; the failing history is rare or is never exercised.", "anchors": ["include/koios/exceptions.h", "include/koios/error_category.h"]}
{"id": "C82", "title": "append_all on regular files, full devices and huge buffers", "statement": "append_all writes the whole buffer also to a regular file opened without O_APPEND, ends when the device accepts nothing, and handles buffers of 4 GiB.", "quantifier": "every buffer and kernel behaviour", "why_tests_cant": "Needs short writes, zero-byte answers and 4 GiB buffers.", "anchors": ["src/iouring_awaitables.cc: append_all"]}
{"id": "C83", "title": "fill calls: exceptions and cancellation", "statement": "Also when the awaited operation throws the returned count is the number of bytes in the buffer and an error is reported; the throwing overloads report a cancellation.", "quantifier": "all kernel behaviours", "why_tests_cant": "Needs exceptions thrown between two partial receives.", "anchors": ["src/iouring_awaitables.cc: recv_fill_buffer_impl/after_read_or_recv, read_fill_buffer"]}
{"id": "C84", "title": "user event loops: loops added after stop()", "statement": "A user loop added after stop() receives stop() too, or the addition is refused.", "quantifier": "all histories", "why_tests_cant": "Holds or fails depending on schedules/histories tests do not enumerate; the failing history is rare or is never exercised.", "anchors": ["src/user_event_loop.cc: user_event_loops::stop, user_event_loops::add_loop"]}
{"id": "C85", "title": "generator: the end is only reported after the local variables are destroyed", "statement": "When next_value_async() returns nullopt because the generator body returned, the body's local variables have been destroyed.", "quantifier": "all schedules", "why_tests_cant": "Holds or fails depending on schedules/histories tests do not enumerate; the failing history is rare or is never exercised.", "anchors": ["include/koios/generator.h: generator_promise_type::return_void"]}
{"id": "C86", "title": "generator: assigning to a generator destroys the one it held", "statement": "Move assignment over a generator that holds a suspended body destroys that body.", "quantifier": "all programs over generator objects", "why_tests_cant": "A leak is not observable by a test of values.", "anchors": ["include/koios/generator.h: _generator::_type::operator=", "include/koios/generator_shared_state.h"]}
{"id": "C87", "title": "timeouts: milliseconds::max() means none, long timeouts do not overflow", "statement": "milliseconds::max() means no deadline in every function, and long timeouts are clamped.", "quantifier": "all clock values and timeouts", "why_tests_cant": "Holds or fails depending on schedules/histories tests do not enumerate; the failing history is rare or is never exercised.", "anchors": ["src/iouring_op_functions.cc", "include/koios/iouring_op_functions.h: connect, accept", "include/koios/iouring_op_batch.h: timeout", "src/iouring_op_batch.cc: timeout", "src/iouring_awaitables.cc: recv_fill_buffer, read_fill_buffer", "src/tcp_util.cc"]}
{"id": "C88", "title": "protobuf framing: failures are reported", "statement": "The send call reports success only if the whole frame was handed to the kernel; a receive that times out reports failure.", "quantifier": "all messages and kernel answers", "why_tests_cant": "Needs failing and short writes at chosen points.", "anchors": ["include/koios/iouring_protobuf.h"]}
{"id": "C89", "title": "tcp server: until_done waits for the accept loops", "statement": "until_done() completes only when the server was told to stop and all its accept loops have finished.", "quantifier": "all schedules", "why_tests_cant": "Holds or fails depending on schedules/histories tests do not enumerate; the failing history is rare or is never exercised.", "anchors": ["src/tcp_server.cc: tcp_server", "include/koios/tcp_server.h"]}
{"id": "C90", "title": "a descriptor in a result object has an owner", "statement": "The descriptor in a result object is closed exactly once also if the program takes it twice or never.", "quantifier": "all programs over result objects", "why_tests_cant": "Descriptor leaks and double closes are invisible until the number is reused.", "anchors": ["src/iouring_ioret.cc: ioret_for_posix_fd_result::get_fd, ioret_for_accept::get_client"]}
{"id": "C91", "title": "lock objects: owns_lock() tells the truth", "statement": "owns_lock() / operator bool of a handle is true exactly if the handle owns the lock.", "quantifier": "all handle programs", "why_tests_cant": "Holds or fails depending on schedules/histories tests do not enumerate; the failing history is rare or is never exercised.", "anchors": ["include/koios/lock_base.h: lock_base", "include/koios/unique_lock.h: unique_lock", "include/koios/shared_lock.h: shared_lock"]}
{"id": "C92", "title": "wait_group: done(0) has no effect", "statement": "done(0) does not resume waiters unless the counter is zero.", "quantifier": "all schedules", "why_tests_cant": "Holds or fails depending on schedules/histories tests do not enumerate; the failing history is rare or is never exercised.", "anchors": ["include/koios/wait_group.h: wait_group::add, done, wait, await_ready, await_suspend"]}
{"id": "C93", "title": "future: several futures of one promise", "statement": "Each future obtained from one promise is resumed with the result.", "quantifier": "all schedules with two futures", "why_tests_cant": "Holds or fails depending on schedules/histories tests do not enumerate; the failing history is rare or is never exercised.", "anchors": ["include/koios/future.h: impl::future_impl, future, promise, shared_state", "include/koios/future_aw.h: future_aw"]}
{"id": "C94", "title": "work-stealing queue: use by threads that are not workers", "statement": "Enqueueing from a thread that is not registered is safe also before any worker registered.", "quantifier": "all threads and states", "why_tests_cant": "Holds or fails depending on schedules/histories tests do not enumerate; the failing history is rare or is never exercised.", "anchors": ["include/koios/work_stealing_queue.h: work_stealing_queue"]}
{"id": "C95", "title": "dir_mutex: destroying an object does not break exclusion", "statement": "Destroying one dir_mutex object leaves the lock of a coroutine holding another object on the same directory alone.", "quantifier": "all schedules", "why_tests_cant": "Holds or fails depending on schedules/histories tests do not enumerate; the failing history is rare or is never exercised.", "anchors": ["src/dir_mutex.cc", "include/koios/dir_mutex.h", "include/koios/async_awaiting_hub.h"]}
{"id": "C96", "title": "co_await of a task delivers its result exactly once", "statement": "co_await on an eager or lazy task completes exactly once, with exactly the value the awaited coroutine returned or the exception it threw, never before that coroutine's body has ended; once it has ended the awaiting coroutine completes after a bounded number of enabled steps, and it can never get stuck.", "quantifier": "every interleaving of caller, callee and workers; eager and lazy tasks; any number of suspensions of the callee; every result", "why_tests_cant": "The end of the callee races with await_ready/await_suspend of the caller; all interleavings are needed.", "anchors": ["include/koios/task.h: operator co_await, promise_type", "include/koios/return_value_or_void.h", "include/koios/future_aw.h", "include/koios/future.h: shared_state"]}
{"id": "C97", "title": "co_await of a task completes only after the task's local variables are destroyed", "statement": "When co_await task() completes, the local variables (locks, guards, buffers, references to the caller's data) of the awaited coroutine have been destroyed.", "quantifier": "every interleaving, eager and lazy tasks", "why_tests_cant": "The window between return_value() and the destruction of the locals is a few instructions.", "anchors": ["include/koios/return_value_or_void.h: return_value, return_void", "include/koios/promise_base.h: final_suspend"]}
{"id": "C98", "title": "turn_into_scheduler() brings the caller onto a worker thread", "statement": "After co_await this_task::turn_into_scheduler() the calling coroutine runs on a worker thread of the scheduler.", "quantifier": "every interleaving, every calling thread", "why_tests_cant": "Race between a worker finishing the helper coroutine and the calling thread testing await_ready().", "anchors": ["src/this_task.cc: turn_into_scheduler", "include/koios/future_aw.h: await_ready"]}
{"id": "C99", "title": "Batches keep the arguments they copied, also when moved", "statement": "A batch copies paths, socket addresses and deadlines given to its prep functions. In every history of creating, filling, moving, executing and destroying batches (moved-from batches only destroyed or moved again; move assignment only between batches using the same user-provided memory resource; user resources outlive their batches), there is no invalid memory access, executing a batch gives the kernel exactly the operations and argument values put into it, in order, and every copy is gone when all batches are.", "quantifier": "every history over any number of batches and memory resources", "why_tests_cant": "Use after free of a copied argument depends on the order of moves and destructions.", "anchors": ["include/koios/iouring_op_batch.h: op_batch", "include/koios/iouring_op_peripheral.h", "src/iouring_op_peripheral.cc", "src/iouring_op_batch.cc: prep_connect/prep_openat/prep_unlink/prep_rename/timeout"]}
{"id": "C100", "title": "Batches can be move-assigned", "statement": "After d = std::move(s), executing d performs the operations put into s, and destroying d and s is safe, whatever memory resources d and s were made with.", "quantifier": "every history and every pair of batches", "why_tests_cant": "The freed memory is usually still readable.", "anchors": ["include/koios/iouring_op_batch.h: op_batch::operator=", "src/iouring_op_peripheral.cc"]}
{"id": "C101", "title": "Awaitables of single operations can be moved before they are awaited", "statement": "The object returned by uring::read, connect and so on can be moved (stored in another object, passed on) and then awaited; the operation it was made for is performed.", "quantifier": "every history of constructions, moves, destructions and awaits", "why_tests_cant": "Depends on which objects are still alive and on copy elision.", "anchors": ["include/koios/iouring_single_op_aw.h", "include/koios/iouring_op_batch_execute_aw.h", "src/iouring_single_op_aw.cc"]}
{"id": "C102", "title": "What is prepared is what the kernel is asked to do", "statement": "For every batch with at least one entry, built from any number of prep_* calls (accept, send, recv, sendmsg, recvmsg, read, write, connect, cancel, openat, unlink, unlinkat, rename, renameat, renameat_noreplace, socket, sync_file_range, fsync, fdatasync, nop) and timeout() calls in any order, with arguments in the ranges of their types, names without NUL, buffers below 4 GiB and offsets other than 2^64-1: the kernel is asked for exactly those operations with exactly those arguments, in order, then for the last deadline given, each entry linked to the next. Each operation function (read, write, send, ...) asks for its operation and its deadline; socket() adds SOCK_NONBLOCK and nothing else.", "quantifier": "all lists of prep/timeout calls and all argument values in range; all operation functions", "why_tests_cant": "Arguments pass through 32-bit and 64-bit fields that are shared by different operations; a truncation, a swapped field or a wrong copy shows only for particular values and combinations.", "anchors": ["src/iouring_op_batch.cc:prep_accept..prep_nop, timeout", "src/iouring_op_functions.cc", "src/iouring_op_batch_rep.cc:get_sqe", "src/iouring_op_batch_execute_aw.cc:await_suspend"]}
{"id": "C103", "title": "Buffers of any size are read and written with their length", "statement": "read, write, send and recv ask the kernel for the whole buffer given, whatever its size, at the offset given.", "quantifier": "all buffer sizes and offsets", "why_tests_cant": "The wrong sizes start at 4 GiB; no unit test allocates such buffers.", "anchors": ["src/iouring_op_batch.cc:prep_read, prep_write, prep_send, prep_recv"]}
{"id": "C104", "title": "The timeout of a batch bounds the whole batch", "statement": "A batch with a deadline set by timeout() has completed at the deadline, whatever its operations do ('the timeout time point of the whole operation batch'), and an operation finished before the deadline is not disturbed.", "quantifier": "all batches, deadlines, durations (also infinite) and outcomes of the operations", "why_tests_cant": "Tests use one operation; a blocked earlier operation of a longer batch does not end the test.", "anchors": ["include/koios/iouring_op_batch.h:timeout", "src/iouring_op_batch.cc:timeout", "src/iouring_op_batch_execute_aw.cc:await_suspend"]}
{"id": "C105", "title": "Printing the runtime's status touches exactly the living mutexes", "statement": "Whatever mutexes are created, first acquired and destroyed by any threads while the status of the runtime is printed, printing only accesses mutexes that are alive, and it covers every living mutex that has ever been acquired, each once.", "quantifier": "all interleavings of construction, first acquisition and destruction of mutexes with printing, on any number of threads", "why_tests_cant": "A use after free needs a destruction between two entries of the printed list; no test runs into that window, and it would go unnoticed.", "anchors": ["src/mutex_monitor.cc:add_event, remove, print_status", "src/coroutine_mutex.cc:mutex::~mutex, mutex_acquisition", "include/koios/event_loop.h:print_status"]}
{"id": "C106", "title": "A mutex can be used and destroyed at any time", "statement": "Acquiring or destroying a koios::mutex never brings the process down, whatever state the runtime is in: not yet initialised, running, stopped, or being torn down at exit.", "quantifier": "all histories of runtime_init, stop, runtime_exit, static destruction and operations on mutexes", "why_tests_cant": "Tests initialise the runtime first and destroy their mutexes before stopping it; the failing orders are those of programs with static or global mutexes.", "anchors": ["src/coroutine_mutex.cc:mutex::~mutex", "src/runtime.cc:get_task_scheduler, runtime_init, runtime_exit", "include/koios/event_loop.h:add_event"]}
{"id": "C107", "title": "A working scheduler can be destroyed", "statement": "The destructor of a scheduler object may be called while its workers run: no worker touches anything already destroyed, and the destructor returns unless the object was made with manually_stop and never stopped.", "quantifier": "all numbers of workers and component loops, all schedules of workers and destructor", "why_tests_cant": "The accesses to destroyed bases last a few instructions and do not crash visibly; tests stop the runtime before leaving main.", "anchors": ["include/koios/event_loop.h:~event_loop, before_each_task", "src/thread_pool.cc:~thread_pool, consumer, done"]}
{"id": "C108", "title": "SIGINT stops the runtime cleanly", "statement": "The first SIGINT after runtime_init(), on whatever thread and whenever it is delivered, makes the runtime stop: all workers end, the handler returns and the process goes on; a later runtime_exit() or stop() returns too. Only a second SIGINT terminates the process.", "quantifier": "all moments and threads of delivery, all interleavings with logging, stop(), runtime_init() and the workers", "why_tests_cant": "Signals arrive between any two instructions of any thread; tests do not send them, and the deadlocks need them within a lock.", "anchors": ["src/runtime.cc:signal_handler, signal_handle_init, runtime_init, runtime_exit", "src/thread_pool.cc:stop, quick_stop"]}
{"id": "C109", "title": "A task enqueued for a worker is executed by that worker", "statement": "enqueue(ca, f) executes f on the thread described by ca.", "quantifier": "all histories of registration, enqueueing and (stealing) dequeueing by any number of workers", "why_tests_cant": "Whether another worker steals the task depends on the schedule.", "anchors": ["include/koios/thread_pool.h:enqueue, enqueue_no_future", "include/koios/work_stealing_queue.h:enqueue, dequeue"]}
{"id": "C110", "title": "A task does not wait longer than half a second for an idle worker", "statement": "A task handed to the scheduler is started at the latest 500 ms later unless all workers are executing other tasks all that time, whatever wake-ups get lost, whatever the loops' sleep times are and however enqueueing and going to sleep interleave.", "quantifier": "all interleavings of enqueueing, notification, scanning, sleeping, spurious wake-ups; any number of workers and tasks", "why_tests_cant": "The lost notification needs an enqueue within a few instructions of a worker going to sleep; a test would see a rare delay only.", "anchors": ["src/thread_pool.cc:consumer", "include/koios/thread_pool.h:wake_up, enqueue_no_future_without_checking"]}
{"id": "C111", "title": "quick_stop() reaches idle workers within half a second", "statement": "500 ms after quick_stop() or runtime_exit() no worker is asleep: each has ended or is still executing the task it had, after which it takes no further one.", "quantifier": "all interleavings of the stop request, its notification and workers going to sleep", "why_tests_cant": "The lost notification needs a stop request within a few instructions of a worker going to sleep.", "anchors": ["src/thread_pool.cc:stop, quick_stop, consumer, done"]}
{"id": "C112", "title": "start() returns when every worker is ready", "statement": "start() (and runtime_init(n)) returns under every schedule of the starting threads, and when it has returned each of the n workers is registered with the task queue and has exactly one entry in consumer_attrs(); no worker is listed before it is registered with the queue.", "quantifier": "all interleavings of the starting thread and n starting workers, all n", "why_tests_cant": "The order in which freshly created threads run is up to the operating system; a test sees a few of the orders.", "anchors": ["src/thread_pool.cc:start, consumer", "include/koios/thread_pool.h:thread_specific_preparation, consumer_attrs"]}
{"id": "C113", "title": "The number of workers in a consumer attribute", "statement": "consumer_attr::number_of_threads is the number of workers of the pool.", "quantifier": "all interleavings of start() and the starting workers, all n", "why_tests_cant": "The value is read while start() fills the vector of threads, and mostly comes out right or nearly so.", "anchors": ["src/thread_pool.cc:start, consumer", "include/koios/thread_pool.h:number_of_threads"]}
{"id": "C114", "title": "The pointers consumer_attrs() returns stay usable", "statement": "As long as the scheduler exists each pointer in consumer_attrs() points to a live attribute object.", "quantifier": "all interleavings of start(), workers, stop requests and readers", "why_tests_cant": "A dangling pointer to a dead thread's stack frame often still reads the old value.", "anchors": ["src/thread_pool.cc:consumer", "include/koios/thread_pool.h:consumer_attrs"]}
{"id": "C115", "title": "A sleeping coroutine is handed back at its deadline if a worker is idle", "statement": "If some worker is idle, a coroutine that awaited sleep_for/sleep_until is handed back to the scheduler at its deadline, and is executed at the latest half a second later.", "quantifier": "all interleavings of sleeping, polling, enqueueing, notification, going to sleep and (spurious) waking of any number of workers; all durations", "why_tests_cant": "Lateness depends on what the worker that happened to run the coroutine does at the deadline; tests with idle pools see none.", "anchors": ["include/koios/this_task.h:sleep_for", "include/koios/timer.h:add_event, max_sleep_duration, cur_thread_ptr", "src/timer.cc:do_occured_nonblk", "src/thread_pool.cc:consumer"]}
{"id": "C116", "title": "sleep_for lasts at least its duration in real time", "statement": "A coroutine that awaits sleep_for(d) is not resumed before d of real time has passed, also when the wall clock is adjusted.", "quantifier": "all behaviours of the wall clock, all histories of any number of threads, all heap implementations", "why_tests_cant": "Tests do not set the wall clock while a coroutine sleeps.", "anchors": ["include/koios/timer.h:timer_event, add_event", "src/timer.cc:do_occured_nonblk"]}
{"id": "C117", "title": "this_task::get_id() identifies the task", "statement": "co_await this_task::get_id() returns a non-null id that is the same every time the task asks, and that no other task of the program is ever given.", "quantifier": "every history of task creations, migrations between workers, operations, cancellations and ends; every address the allocator may choose", "why_tests_cant": "whether a freed frame's address is chosen again is up to the allocator; a test run may never see it", "anchors": ["include/koios/get_id_aw.h:get_id_aw", "src/get_id_aw.cc:get_id_aw::await_suspend", "include/koios/this_task.h:this_task::get_id", "include/koios/task_on_the_fly.h:task_on_the_fly::address"]}
{"id": "C118", "title": "cancel_first(id) reaches that task's pending operation", "statement": "co_await uring::cancel_first(id) with an id obtained by this_task::get_id() cancels the pending operation of exactly the task with that id, and reports failure only when that task has no pending operation.", "quantifier": "every history, every number of workers, every pair of canceller and target", "why_tests_cant": "which worker a task runs on is decided by work stealing; id reuse by the allocator", "anchors": ["src/iouring_op_functions.cc:cancel_first", "src/iouring_op_functions.cc:cancel_all", "src/iouring_op_batch_execute_aw.cc:await_suspend", "src/iouring.cc:add_event", "src/iouring.cc:dealwith_cqe", "src/iouring_op_batch.cc:prep_cancel_first"]}
{"id": "C119", "title": "Programs whose tasks wait by co_await complete", "statement": "On a pool with at least one worker, a program in which main() starts tasks and calls get()/result() on them, and tasks start further eager or lazy tasks, yield, sleep, do I/O and co_await tasks they have started, runs to completion under every schedule: no deadlock, and every get() of main() returns. (Eager tasks started by main() do not sleep before they have moved to a worker: C68.)", "quantifier": "all programs of any size and shape (finite trees of tasks), all numbers of workers >= 1, all schedules", "why_tests_cant": "deadlock freedom and termination range over all programs and interleavings", "anchors": ["include/koios/task.h:run_and_get_future, result, operator co_await", "include/koios/future.h:get, shared_state::set_value, set_waiting, wait_util_has_value", "include/koios/future_aw.h:future_aw", "src/thread_pool.cc:consumer", "include/koios/this_task.h:yield", "include/koios/timer.h:timer_event_loop::cur_thread_ptr", "include/koios/event_loop.h:before_each_task"]}
{"id": "C120", "title": "result() can be called from tasks", "statement": "Tasks may also wait for the tasks they start by a blocking get() or result(); the program still runs to completion under every schedule.", "quantifier": "all programs, numbers of workers, schedules", "why_tests_cant": "needs all workers to be in get() at the same moment", "anchors": ["include/koios/task.h:run_and_get_future, result, operator co_await", "include/koios/future.h:get, shared_state::set_value, set_waiting, wait_util_has_value", "include/koios/future_aw.h:future_aw", "src/thread_pool.cc:consumer", "include/koios/this_task.h:yield"]}
{"id": "C121", "title": "A coroutine can sleep for any duration and until any time point", "statement": "sleep_for(d) suspends until d after the call for every positive d of every standard duration type, duration::max() meaning practically for ever; sleep_until(tp) suspends until tp, time_point::max() meaning for ever, and continues at once if tp has passed.", "quantifier": "all durations of all units, all time points, all clock readings", "why_tests_cant": "the failing values are the extreme ones, and signed overflow may look harmless in a test build", "anchors": ["include/koios/this_task.h:sleep_for, sleep_until, sleep_await", "include/koios/timer.h:timer_event_loop_impl::add_event"]}
{"id": "C122", "title": "The callable given to make_lazy outlives the task made from it", "statement": "make_lazy(f, args...) (and for_each, for_each_dispatch_evenly through it) keeps the callable f, with its captures, alive for as long as the coroutine it starts uses it, whenever the returned task is scheduled.", "quantifier": "all interleavings of the caller, the wrapper and the callable's coroutine; callables returning eager and lazy tasks", "why_tests_cant": "a dangling capture usually still holds its old value, and the destructor case needs a particular interleaving", "anchors": ["include/koios/functional.h:make_lazy, for_each, for_each_dispatch_evenly", "include/koios/return_value_or_void.h:return_value"]}
{"id": "C123", "title": "to() of a pipeline collects exactly what the pipeline means", "statement": "gen.to<Container>() and to(iterator), on any composition of unique() and merge() over generators that end, terminates and returns exactly the pipeline's values in order; in particular unique() over merge() of two sorted generators is their set union: strictly sorted, and with exactly the values of both, up to equivalence.", "quantifier": "all pipelines of unique and merge of any depth, all finite sources, all comparators", "why_tests_cant": "ranges over all compositions, sequences and comparators", "anchors": ["include/koios/generator.h:unique_impl, rvalue_to_impl, rvalue_to_iter_impl, to, merge"]}
{"id": "C124", "title": "merge() works on demand, also over infinite generators", "statement": "After n calls of next_value_async() on merge(a, b), at most n + 1 calls have been made on a and b together; the values delivered are those of std::merge on the values read so far, except for at most one value held back; and every call is answered if the inputs answer theirs, infinite inputs included.", "quantifier": "all input generators (finite, infinite, themselves pipelines), comparators, numbers of calls", "why_tests_cant": "infinite inputs and all comparators", "anchors": ["include/koios/generator.h:merge"]}
{"id": "C125", "title": "unique() delivers a value once it is known to be new", "statement": "unique() delivers each value that differs from its predecessor when its input has yielded it, without waiting for what follows.", "quantifier": "all input generators, also infinite ones, all equivalences, numbers of calls", "why_tests_cant": "a test with a finite list sees every value; the wait shows only with an input that goes on or pauses", "anchors": ["include/koios/generator.h:unique_impl"]}
{"id": "C126", "title": "connect_get_sock and bind_get_sock_tcp give a socket as asked for, or nothing", "statement": "connect_get_sock returns a new socket of the address's family, with the given flags, connected to the address and port; bind_get_sock_tcp returns a new socket with the options and flags asked for, bound to the address and port. If any step fails they throw the error of that step and no descriptor stays open.", "quantifier": "all outcomes of every system call, all arguments, all states of the descriptor table", "why_tests_cant": "each of the failing steps would have to be provoked in the kernel", "anchors": ["src/iouring_awaitables.cc:connect_get_sock, bind_get_sock_tcp", "src/iouring_ioret.cc:error_code, get_fd", "src/iouring_op_functions.cc:socket"]}
{"id": "C127", "title": "async_awaiting_hub wakes every waiter exactly once", "statement": "Every task given to add_awaiting is handed to the scheduler at most once per add; may_wake_next hands over one task and returns true, or false if none waits; may_wake_all returns after all tasks that waited have been woken, and its result tells whether it woke one; it always returns.", "quantifier": "all interleavings of any number of threads adding and waking", "why_tests_cant": "races between wakers and adders", "anchors": ["include/koios/async_awaiting_hub.h:add_awaiting, may_wake_next, may_wake_all"]}
{"id": "C128", "title": "Data under a mutex behaves as if critical sections ran one after the other", "statement": "If coroutines access shared data only between obtaining a koios::mutex and unlock(), then under every interleaving, including suspension and migration in the middle of a section, the data is what executing the sections one after the other in the order of obtaining the lock gives; in particular no counter increment is lost.", "quantifier": "all numbers of coroutines, sections made of any actions, all interleavings of their actions and of the mutex's atomic steps", "why_tests_cant": "all interleavings of sections of any length", "anchors": ["include/koios/coroutine_mutex.h:hold_this_immediately, add_waiting, release", "src/coroutine_mutex.cc:try_wake_up_next", "include/koios/acq_lk_aw.h:await_ready, await_suspend, await_resume"]}
{"id": "C129", "title": "Data read under a shared_mutex does not change while the lock is held", "statement": "While a coroutine holds a koios::shared_mutex, shared or unique, what it reads changes only by its own writes, provided data is read only under the lock and written only under the unique lock.", "quantifier": "all numbers of coroutines, all interleavings of their reads, writes and the lock's critical sections", "why_tests_cant": "all interleavings", "anchors": ["src/coroutine_shared_mutex.cc:hold_this_shr_immediately, add_shr_waiting, add_waiting, release, try_wake_up_next", "include/koios/coroutine_shared_mutex.h", "include/koios/acq_lk_aw.h"]}
{"id": "C130", "title": "On one worker the mutex loses no wake-up and is first come, first served", "statement": "If all coroutines using a koios::mutex run on one worker thread, then whenever a coroutine waits for the lock some other coroutine holds it, has been handed it, or is in the middle of releasing it (so no coroutine is left waiting once everything has come to rest), and the lock is obtained in exactly the order in which it was requested. With two worker threads neither holds.", "quantifier": "every number of coroutines, every sequence of acquire/try_acquire/release operations and resumptions executed by one thread", "why_tests_cant": "the claim is about every history of requests and releases; a test sees a few", "anchors": ["include/koios/coroutine_mutex.h", "src/coroutine_mutex.cc:try_wake_up_next", "include/koios/acq_lk_aw.h"]}
{"id": "C131", "title": "What is written under a mutex is visible to the next owner", "statement": "Under the C++ memory model, with the memory orders the code uses, any two accesses to data that is accessed only while holding a koios::mutex are ordered by happens-before, whatever threads the coroutines run on: there is no data race, and a critical section sees everything written in the earlier ones. Each of the acquire of the test-and-set and the release of both stores is needed for that.", "quantifier": "all interleavings of any number of coroutines, both ways of passing the lock on (direct and through the waiting queue), spuriously failing dequeues included", "why_tests_cant": "memory reorderings depend on hardware and compiler; x86 test machines hide a missing release or acquire", "anchors": ["include/koios/coroutine_mutex.h:hold_this_immediately", "include/koios/coroutine_mutex.h:release", "src/coroutine_mutex.cc:try_wake_up_next"]}
{"id": "C132", "title": "After wait() everything done before done() is visible", "statement": "Under the C++ memory model, with the memory orders the code uses: when a co_await of wait_group::wait() completes, the counter had come down to zero after all add() calls that happened before the wait began, and every done() call that brought it there happens before the completion. In particular, if all add() calls happen before the wait, everything done before any done() is visible to the waiter. An add() that is not ordered before the wait may be missed.", "quantifier": "all executions in which done() is called for what was added only and add() is not called while a done() that reached zero is still running; any number of coroutines; any value coherence allows the waiter to read", "why_tests_cant": "memory reorderings depend on hardware and compiler", "anchors": ["include/koios/wait_group.h:add", "include/koios/wait_group.h:done", "include/koios/wait_group.h:ready", "include/koios/wait_group.h:wait"]}
{"id": "C133", "title": "A wait_group can be destroyed once wait() has completed", "statement": "When every add() has been matched by a call of done() and nobody waits any more, a coroutine whose wait() has completed may destroy the wait_group (for example as its local variable): no call on it uses it afterwards.", "quantifier": "all schedules in which no operation is begun after the destruction", "why_tests_cant": "the window between the decrement and the end of done() on another thread is tiny, and the use of freed memory usually goes unnoticed", "anchors": ["include/koios/wait_group.h:done", "include/koios/wait_group.h:wake_up_all", "include/koios/wait_group.h:wait"]}
{"id": "C134", "title": "A mutex can be destroyed by its last user", "statement": "As for std::mutex: when nobody owns a koios::mutex or waits for it and nobody will use it again, the coroutine that unlocked it last may destroy it, even if an earlier unlock() has not returned yet: no call on it uses it afterwards.", "quantifier": "all schedules in which no operation is begun after the destruction", "why_tests_cant": "the window between the clear and the end of unlock() on another thread is tiny, and the use of freed memory usually goes unnoticed", "anchors": ["include/koios/coroutine_mutex.h:release", "src/coroutine_mutex.cc:try_wake_up_next"]}
{"id": "C135", "title": "On one worker, tasks that lock mutexes in a fixed order complete", "statement": "With one worker, any number of tasks that lock and unlock any number of koios::mutexes, suspend in between, unlock what they locked and take the mutexes in increasing order all finish: whatever task the worker picks next, the number of steps is bounded by the length of the programs, and a state in which the worker has nothing more to do is one in which every task has finished. Without the order two tasks can stop for ever, each waiting for the other's mutex.", "quantifier": "every number of tasks and mutexes, every program of each task that keeps the lock order, every choice the single worker makes", "why_tests_cant": "deadlock and lost wake-ups depend on the interleaving of the tasks; the number of interleavings grows without bound with the programs", "anchors": ["include/koios/coroutine_mutex.h", "src/coroutine_mutex.cc:try_wake_up_next", "include/koios/acq_lk_aw.h", "src/thread_pool.cc:consumer"]}
{"id": "C136", "title": "On one worker every waiter of a wait_group is released", "statement": "With one worker and every done() being done(1) of something added, a coroutine waits at a koios::wait_group only while the counter is positive or the done() that reached zero is just releasing the waiters; once the counter is zero and all calls of done() have returned nobody waits. done(2) at a counter of two releases nobody, even on one worker.", "quantifier": "every history of add, done and wait by any number of coroutines on one thread, every order in which the waiters are dequeued", "why_tests_cant": "the loss of a wake-up depends on the interleaving of wait() and done(); a test sees a few of them", "anchors": ["include/koios/wait_group.h"]}
{"id": "C137", "title": "dir_mutex: cancelling ends the polling", "statement": "After cancel_all_polling() of a koios::dir_mutex every poller of that object ends after at most two more steps of its own, whatever the others do, is never blocked, and the request is not taken back. The coroutines that wait for the lock through that object are not told: once its polling has ended and nobody else uses the object they wait for ever, although the lock file is gone.", "quantifier": "every reachable state of any number of coroutines, objects and pollers of one lock file; every continuation", "why_tests_cant": "the end of the polling must hold in every interleaving of pollers and holders; that nobody is woken is a statement about all continuations", "anchors": ["src/dir_mutex.cc:cancel_all_polling", "src/dir_mutex.cc:polling_lock_file"]}
{"id": "C138", "title": "An idle worker sleeps; a worker looks before it sleeps", "statement": "Between two rounds of polling the event loops and looking for a task, a worker of the thread pool has begun a task or has gone to sleep; and it goes to sleep or begins a task only after such a round. So an idle worker does not spin, and a worker that just finished a task looks for another before it sleeps.", "quantifier": "all numbers of workers, all schedules of workers, enqueuers and stops", "why_tests_cant": "A test sees CPU use or latency of some schedules; a round skipped or repeated in a rare interleaving with stop() is invisible.", "anchors": ["src/thread_pool.cc: thread_pool::consumer", "src/thread_pool.cc: thread_pool::done"]}
{"id": "C139", "title": "On one worker, programs that use mutexes, wait groups and task results in an order complete", "statement": "With one worker, any number of tasks that lock and unlock koios::mutexes, add() to, done() and wait() for wait_groups, start other tasks and await their futures, all finish if there is an order on mutexes, groups and tasks such that a task waits only for what comes later than everything it has locked, every done() it owes and its own result, and every task ends with nothing locked and nothing owed (done() calls may be handed to the tasks it starts). Whatever task the worker picks next, the number of steps is bounded by the length of the programs, no operation is a misuse (no done() below zero, no second waiter on a future), and a state in which the worker has nothing more to do is one in which every started task has finished, no mutex is locked, every counter is zero and nobody waits. Without the order tasks can stop for ever: one that waits for a group while it holds the mutex that the tasks of the group need.", "quantifier": "every number of tasks, mutexes and groups, every program of each task that keeps an order, every choice the single worker makes", "why_tests_cant": "whether a combination of locks, groups and awaited tasks can get stuck depends on the interleaving; the number of interleavings and of programs is unbounded", "anchors": ["include/koios/coroutine_mutex.h", "src/coroutine_mutex.cc:try_wake_up_next", "include/koios/wait_group.h", "include/koios/future.h:shared_state", "include/koios/future_aw.h", "include/koios/task.h:run_and_get_future", "src/thread_pool.cc:consumer"]}
{"id": "C140", "title": "A generator's body and its consumer never race", "statement": "Between a call of next_value_async() and its completion only the body of the generator runs, at all other times only the consumer: any two accesses they make, to the yielded value (which is passed without a lock) or to any common data, are ordered by happens-before, on whatever worker threads they run and however often they move between them. So each sees everything the other did before the hand-over. The destruction of a suspended body by the generator's destructor is ordered too; the destruction of the body's local variables after its end is not (it races with the consumer, see C85).", "quantifier": "all sequences of yielded values, all interleavings of consumer, body and scheduler, all executions of the C++ memory model", "why_tests_cant": "a data race shows up only on particular hardware reorderings and timings; the claim is about every interleaving", "anchors": ["include/koios/generator.h:get_yielded_aw, yield_value, return_void", "include/koios/generator_shared_state.h:yielded_value_slot", "src/waiting_handle.cc:wake_up"]}
{"id": "C141", "title": "What a task did before its result was stored is visible to whoever obtains the result", "statement": "Under the C++ memory model, everything a task did up to the storing of its result (or exception), and the storing itself, happens before the result is obtained, whether by co_await on the future (with or without suspending), get_nonblk() or a blocking get(), whatever threads run the task and the consumers: no data race on the result or on anything the task wrote before.", "quantifier": "every number of consumers, every order of steps of task and consumers, every placement on threads, spurious wake-ups included", "why_tests_cant": "a missing happens-before edge is invisible in tests on strongly ordered hardware and shows only in some schedules", "anchors": ["include/koios/future.h:30-172", "include/koios/future_aw.h:18-48", "src/waiting_handle.cc:13-22"]}
{"id": "C142", "title": "user event loops: callbacks and the container", "statement": "While a user loop is being prepared for a thread no callback of any user loop runs on another thread; the list of loops never changes under a thread that goes through it; and every call of the container returns, whatever the callbacks do: a callback may itself add a loop, query the container or stop it.", "quantifier": "every number of threads and loops, every interleaving of calls and callbacks, every order in which the shared mutex serves its requests", "why_tests_cant": "a deadlock needs a particular callback and a particular interleaving, and its consequence (no later call is ever served) is a statement about all continuations", "anchors": ["src/user_event_loop.cc:12-103", "include/koios/user_event_loops.h:22-41", "include/koios/user_event_loop_interface.h"]}
{"id": "C143", "title": "user event loops: no polling after quick_stop(), without a data race", "statement": "Once quick_stop() has marked the container, no poll that looks at the mark afterwards calls a user loop; the mark is accessed without a data race.", "quantifier": "every number of threads and loops, every interleaving, every continuation", "why_tests_cant": "the race shows only in some interleavings and its effect depends on compiler and hardware; the first part ranges over all continuations", "anchors": ["src/user_event_loop.cc:31-40", "src/user_event_loop.cc:62-72", "include/koios/user_event_loops.h:36"]}
{"id": "C144", "title": "A coroutine that moves between threads never races with itself", "statement": "Under the C++ memory model all accesses to the frame of a coroutine (its creation, its code before and after any suspension whatever it awaits and on whatever threads it is resumed, its destruction by itself or by somebody else) are ordered by happens-before; so is what its creator did before creating it, and what the one who woke it did before waking it, with what it does afterwards.", "quantifier": "every number of threads and coroutines, every sequence of suspensions on queues, locked slots, timers and I/O, every interleaving", "why_tests_cant": "a missing happens-before edge shows only on some hardware and in some schedules", "anchors": ["include/koios/task_on_the_fly.h", "include/koios/acq_lk_aw.h:27-30,84-88", "include/koios/this_task.h:38-41,83", "src/waiting_handle.cc:13-27", "include/koios/wait_group.h:44-47", "include/koios/future.h:49-60", "include/koios/generator_shared_state.h:48-77", "src/timer.cc:40-83", "src/iouring.cc"]}
{"id": "C145", "title": "On one worker, programs of scopes with exceptions complete, and every exception arrives where it should", "statement": "Any number of coroutines on one worker, each written with scopes: a mutex is locked for a block (unique_lock), started tasks report to wait_groups with a wait_group_guard, the future of a started task is awaited at the end of a block (co_await rethrows what the task threw), and any of them may throw, catch, suspend, wait for groups, and start tasks nobody awaits. If every wait is for something later in some order than what the task holds and owes, then: every run is finite with a bound computed from the programs; it stops only when exactly the tasks that were to be started have ended, each with the value or exception its own code (with the results of the tasks it awaits) gives; no mutex stays locked, no group above zero and no task suspended, whatever was thrown; and the results do not depend on how the tasks were interleaved.", "quantifier": "every number of tasks, every scoped program with exceptions in the class, every choice of the worker at every step", "why_tests_cant": "an exception can leave a scope at any operation, and each combination of throwing tasks and interleavings is another run; a test fixes a few of them", "anchors": ["include/koios/lock_base.h: unique_lock::~unique_lock", "include/koios/wait_group.h: wait_group_guard", "include/koios/future.h: future::get, await_resume", "include/koios/task.h: unhandled_exception, run_and_get_future", "src/thread_pool.cc: thread_pool::consumer"]}
{"id": "C146", "title": "co_await of a coroutine means what the call of an ordinary function means", "statement": "Take any program of coroutines each of which awaits the coroutines it calls (task<> and lazy_task<> in any mixture, to any depth; bodies do observable things, suspend, return, throw, and decide what to do next from the results and exceptions they got), started with result() from a thread outside the pool, on any number of workers. The effects of the bodies happen exactly in the order, and with the outcomes, they would have if every co_await of a call were a plain call of a function and every suspension did nothing; result() returns (or throws) what that program of functions returns (or throws), and by then every effect of every body has happened. The only difference is that destructors of a callee's locals may run later than in the function program (never earlier, never twice, and none is lost); with one worker even they run exactly in place. The execution has at most a number of steps computed from the program, and cannot stop before result() has returned, runtime_exit() has returned and every thread is idle.", "quantifier": "every such program (given as an unbounded tree with arbitrary control flow), every number of workers, every schedule of the workers, of the thread outside and of the wake-ups", "why_tests_cant": "whether a callee ends before, while or after its caller awaits it, and on which thread each goes on, is decided by the schedule anew at each call; a test sees some of them for one program", "anchors": ["include/koios/task.h: _type(promise_type&), run_and_get_future_on, operator co_await, result", "include/koios/promise_base.h: promise_base, final_suspend", "include/koios/return_value_or_void.h", "include/koios/future.h: shared_state::set_value, await_suspend_task", "include/koios/future_aw.h: future_awaiter", "include/koios/task_scheduler.h", "src/thread_pool.cc: consumer", "src/runtime.cc: runtime_exit", "README.md: Quick Start"]}
{"id": "C147", "title": "Every ready task gets its turn, however often the others yield", "statement": "A task that is ready (enqueued, or its deadline has passed, or its I/O is complete) gets its next turn after a bounded number of turns of other tasks, also when those never end but keep co_awaiting this_task::yield(): tasks enqueued by one thread get their turns in that order; while a task waits in the queue every other task has at most one turn before it, and while its expired timer or completed I/O waits to be noticed at most two.", "quantifier": "every number of tasks and workers, every behaviour of the tasks in their turns (starting and waking others, yielding, suspending, ending), every interleaving with deadlines, completions and threads outside the pool", "why_tests_cant": "starvation is about what never happens, for every pattern of yields; a test stops after some time", "anchors": ["src/thread_pool.cc: consumer", "include/koios/this_task.h: yield", "include/koios/event_loop.h: before_each_task, do_occured_nonblk", "src/timer.cc: do_occured_nonblk", "src/iouring.cc: do_occured_nonblk", "include/koios/work_stealing_queue.h: enqueue, dequeue", "src/moodycamel_queue_wrapper.cc"]}
{"id": "C148", "title": "Coroutines that share nothing but futures compute the same on every schedule, and always end", "statement": "A program that starts coroutines (run_and_get_future() of eager or lazy tasks, to any depth), hands futures on to the coroutines it starts and co_awaits futures, and shares nothing else between coroutines, has one result: result() returns the value, or throws the exception, that the program computes when every coroutine is run to its end where it is started. However the workers are scheduled, the program ends after a bounded number of steps, result() returns, every coroutine that was started ends, also those whose futures nobody awaits, and what the coroutines do is done exactly once.", "quantifier": "all programs of fork, await, moved futures, exceptions, suspensions and effects whose control flow depends on the results in any way, eager and lazy tasks, every number of workers, every interleaving of the threads, await_ready and await_suspend being separate steps", "why_tests_cant": "determinacy and termination are about all schedules of all programs; a test runs one program on some schedules", "anchors": ["include/koios/task.h: run_and_get_future, result", "include/koios/return_value_or_void.h", "include/koios/future.h: set_value, set_exception", "include/koios/future_aw.h: await_ready, await_suspend, await_resume", "src/future.cc", "include/koios/task_scheduler.h", "src/thread_pool.cc: consumer"]}
{"id": "C149", "title": "Data guarded by a shared_mutex is free of data races", "statement": "If shared data is read only while holding a koios::shared_mutex (shared or unique) and written only while holding it uniquely, then any two accesses of which one is a write are ordered by the C++ happens-before relation, on whatever threads the coroutines run, so that there is no data race and a holder of the lock sees everything written under it before.", "quantifier": "all numbers of readers and writers, all interleavings of acquire_shared/acquire/try_acquire/unlock, reads and writes, all choices of which waiter is woken, all executions the memory model allows", "why_tests_cant": "a missing happens-before edge shows up only on some hardware, some compiler and some schedule; a test on a strongly ordered machine cannot see it", "anchors": ["include/koios/coroutine_shared_mutex.h: shared_mutex", "src/coroutine_shared_mutex.cc: try_wake_up_next, hold_this_shr_immediately, add_shr_waiting, add_waiting, release", "include/koios/acq_lk_aw.h: acq_shr_lk_aw, acq_uni_lk_aw", "src/waiting_handle.cc: wake_up"]}
{"id": "C150", "title": "The idle report of the thread pool means that the pool is idle", "statement": "The message \"thread_pool has been idle for a while!\" is printed only when the pool has been idle for 15 seconds, with no task waiting to be executed and no timer or I/O a task waits for; no worker executes a task when it is printed; and two such messages are at least 15 seconds apart.", "quantifier": "all numbers of workers, all interleavings of their registration, polling, counting, sleeping and waking, all arrivals of tasks and events, all advances of the clock", "why_tests_cant": "the report depends on three counters read and written at different moments by all workers, and on 15 seconds of time; a test sees a few runs of a few seconds", "anchors": ["src/thread_pool.cc: consumer", "include/koios/thread_pool.h: has_pending_event, thread_specific_preparation"]}
{"id": "C151", "title": "The mutex works in every execution the C++ memory model allows, not only in interleavings", "statement": "Whatever execution the C++ memory model allows for coroutines that use a koios::mutex (acquire, try_acquire, unlock), with the memory orders written in the code: any two accesses to the guarded data are ordered by happens-before, of two accesses by different coroutines one happens after the other coroutine's unlock, and what every acquire, try_acquire and unlock did is what it would have done in some interleaving of atomic steps.", "quantifier": "all finite executions: any number of coroutines, any sequenced-before, reads-from and modification order the standard's axioms admit, try_dequeue failing at any time", "why_tests_cant": "which executions the memory model allows depends on compiler and processor; a test machine shows a few of them, and x86 never shows most", "anchors": ["include/koios/coroutine_mutex.h: hold_this_immediately, add_waiting, release", "src/coroutine_mutex.cc: try_wake_up_next", "include/koios/acq_lk_aw.h: acq_lk_aw, try_acq_lk_aw", "src/waiting_handle.cc: wake_up"]}
{"id": "C152", "title": "wait_group joins in every execution the C++ memory model allows, not only in interleavings", "statement": "Whatever execution the C++ memory model allows for a program that uses a wait_group as intended (done() only for what was added; no add() while a done() that reached zero has not returned), with the memory orders written in the code (add() is relaxed, ready() may read an old value): when a co_await of wait() completes, the counter had come down to zero after all add()s that happen before the wait, and every done() up to there happens before the completion. If all add()s happen before the wait begins, every done() of the program happens before it completes.", "quantifier": "all finite executions: any number of coroutines and waits, any sequenced-before, reads-from, modification order and other synchronisation the standard's axioms admit, try_dequeue failing at any time", "why_tests_cant": "which executions the memory model allows depends on compiler and processor; a test machine shows a few of them, and x86 never shows most", "anchors": ["include/koios/wait_group.h: add, done, ready, wait, wake_up_all", "src/waiting_handle.cc: wake_up"]}
{"id": "C153", "title": "Shutting the runtime down destroys every coroutine frame, once", "statement": "After stop() or quick_stop() has returned, and after the queues, the event loops and main()'s tasks and futures have been destroyed, every coroutine that was ever called has had its frame destroyed, exactly once; no frame is destroyed while something else owns it; the destructors come to an end.", "quantifier": "all trees of coroutines that call, start, await, hold and pass around tasks and futures, all moments of the shutdown, all orders in which the destructors run", "why_tests_cant": "Which frames are left depends on who holds what at the moment of the shutdown, and on the order of destructors that run inside one another on several threads; a leak is silent.", "anchors": ["include/koios/future.h: shared_state, future, promise", "include/koios/task_on_the_fly.h: task_on_the_fly", "include/koios/task.h: task, get_future, operator co_await", "include/koios/promise_base.h: final_suspend", "include/koios/future_aw.h: await_suspend", "src/thread_pool.cc: stop, quick_stop"]}
{"id": "C154", "title": "The future of a functor given to thread_pool::enqueue() answers, once, with what the functor did", "statement": "For every functor accepted by enqueue(): get() of its future returns what the functor returned, or throws what it threw, in its only execution and not before that has ended; it throws broken_promise exactly if the pool is destroyed with the functor never executed; it does not block once the functor has been executed or the pool destroyed; when stop() has returned, no get() of an accepted functor blocks. What a functor throws reaches its own future, or the log if it was given to enqueue_no_future(), and nothing else: the workers and the other functors go on as if it had returned.", "quantifier": "all numbers of workers, all threads that enqueue, get and stop in every interleaving, all results and exceptions, all moments of the shutdown and of the destruction", "why_tests_cant": "Where a functor is when stop(), quick_stop() or the destructor runs depends on the schedule; a get() that never returns is seen only in that window.", "anchors": ["include/koios/thread_pool.h: enqueue, enqueue_no_future, enqueue_without_checking, ~thread_pool", "src/thread_pool.cc: consumer, stop, quick_stop, done"]}
{"id": "C155", "title": "A graceful stop executes what happens before it even if the queues' answers are out of date", "statement": "The queues of thread_pool answer with relaxed loads, so a worker may be told that a queue is empty although another thread has put something into it, as long as the worker does not know of an element that is still in it. Nevertheless, once all workers have ended after stop() (nobody calling quick_stop()), every functor that a task enqueued on a worker, at whatever time, also while stop() is running, has been executed, and so has every functor whose enqueue() happens before the call of stop() in the sense of the memory model; no functor is executed twice, and only what was enqueued. Being enqueued earlier in time only, without synchronisation with the thread that calls stop(), is not enough: such a functor may be left behind.", "quantifier": "all numbers of workers and orders of looking at the queues, all interleavings of enqueueing, working, stealing, sleeping and stop(), all combinations of up-to-date and out-of-date answers the memory model allows, all synchronisation between the threads", "why_tests_cant": "Stale answers do not occur on x86 test machines and depend on the hardware's and compiler's reordering; a test sees a few schedules under one memory model.", "anchors": ["src/thread_pool.cc: thread_pool::stop, consumer, done", "include/koios/work_stealing_queue.h: dequeue, empty, size", "include/koios/thread_pool.h: enqueue"]}
{"id": "C156", "title": "Waiting by get() inside a task is safe as long as another worker is free", "statement": "A task may wait by get() or result() for a task it has started, also one that sleeps or does I/O: as long as another worker is not blocked, the get() returns.", "quantifier": "all programs, numbers of workers, schedules", "why_tests_cant": "whether the awaited task is in the event loop of the blocked worker depends on the schedule, and a hang is visible only in that case", "anchors": ["include/koios/task.h:run_and_get_future, result", "include/koios/future.h:get", "include/koios/timer.h:timer_event_loop::cur_thread_ptr, do_occured_nonblk", "src/iouring.cc:do_occured_nonblk", "include/koios/event_loop.h:before_each_task", "src/thread_pool.cc:consumer"]}
{"id": "C157", "title": "dir_mutex: cancel_all_polling() and the destructor return", "statement": "cancel_all_polling() of a dir_mutex, and its destructor, return after a bounded number of steps of the pollers of the object, whoever calls them and whatever the polls have met.", "quantifier": "all numbers of workers, objects and pollers, all schedules, all outcomes of openat", "why_tests_cant": "whether a poller is asleep in the timer of the calling worker, or has failed, depends on the schedule and the file system; a hang shows only in that case", "anchors": ["src/dir_mutex.cc:cancel_all_polling, ~dir_mutex, polling_lock_file, create_lock_file, hold_this_immediately", "include/koios/future.h:get", "include/koios/timer.h:timer_event_loop::cur_thread_ptr, do_occured_nonblk", "src/thread_pool.cc:consumer"]}
{"id": "C158", "title": "What the workers did is visible after stop()", "statement": "Under the C++ memory model, everything that functors, tasks and event loops did on the worker threads happens before the return of stop() or quick_stop() of a thread pool, in whichever thread that calls it, also if several threads call it at the same time or one after the other; no worker executes anything after such a return.", "quantifier": "all numbers of workers and of threads that call stop() or quick_stop(), any number of times, in every interleaving with each other and with the workers", "why_tests_cant": "a missing ordering shows only on particular hardware and timing; a second caller that returns before the first has joined all threads needs one schedule among many", "anchors": ["src/thread_pool.cc:stop, quick_stop, consumer", "include/koios/thread_pool.h:m_stop_once_flag, m_thrs"]}
{"id": "C159", "title": "Functors see what was done before they were enqueued, and their results what they did", "statement": "Under the C++ memory model, everything a thread did before it enqueues a functor happens before everything the functor does, on whichever worker it is executed; and everything the functor does happens before the return of get() of its future (by value or exception) and before what the caller of get() does afterwards. Functors that enqueue functors and obtain results are included.", "quantifier": "all numbers of threads and functors, every order of enqueueing, taking, executing and obtaining, every thread as enqueuer, executor and consumer", "why_tests_cant": "a missing ordering shows only on particular hardware and timing", "anchors": ["include/koios/thread_pool.h:enqueue, enqueue_no_future, enqueue_without_checking, enqueue_no_future_without_checking", "src/thread_pool.cc:consumer"]}
{"id": "C160", "title": "The timers of all workers can be used concurrently without data races", "statement": "Under the C++ memory model, any two conflicting accesses to the timer registry or to a worker's timers, made by different threads, are ordered by happens-before, whatever is called at the same time: adding timers (sleeping), the workers' own polling and computing of how long they may sleep, registration of a worker, done() and print_status(), quick_stop(), from any thread.", "quantifier": "all numbers of threads and workers, every sequence of calls in every thread, every interleaving of the lock operations and accesses", "why_tests_cant": "a data race shows only on particular hardware, timing and library implementation", "anchors": ["include/koios/timer.h:timer_event_loop (cur_thread_ptr, max_sleep_duration, add_event, thread_specific_preparation), timer_event_loop_impl::quick_stop", "src/timer.cc:do_occured_nonblk, quick_stop, done, print_status, add_event_impl"]}
{"id": "C161", "title": "The kernel only touches memory of coroutines that exist", "statement": "Once the frame of a coroutine has been destroyed, the kernel neither reads nor writes memory of an operation that coroutine had started (buffers, addresses, timespecs, the batch itself), the coroutine is not resumed and not destroyed a second time; also while workers stop and end.", "quantifier": "all numbers of coroutines, workers and operations per batch (1 to 1024), every order of accesses and completions by the kernel, every moment at which a worker is stopped or ends", "why_tests_cant": "the window between the destruction of a frame and the last access by the kernel depends on device timing; a stray write shows, if ever, as corruption elsewhere", "anchors": ["src/iouring.cc:iouring_event_loop_perthr::add_event, do_occured_nonblk, dealwith_cqe, stop", "include/koios/iouring.h:~iouring_event_loop_perthr, m_opreps", "src/iouring_op_batch_execute_aw.cc:await_suspend", "include/koios/iouring_op_batch_rep.h:has_enough_ret, add_ret"]}
