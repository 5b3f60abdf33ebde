# Formal model of koios in Rocq (Coq 8.16.1)

Sources: `/repo` (JPewterschmidt/koios, pinned commit), read as text only; nothing was built or run.
This file is produced by `python3 tools/design.py` from `tools/design_head.md` (sections 1-5), `properties.jsonl`, `tools/notes.json`
and the theorem names found in `rocq/theories` (section 6).

## 1. Conventions

* One directory per component under `rocq/theories/`: `Model.v` (executable definitions, each citing file and lines),
  `Spec.v` (small vocabulary used by the statements, when one is needed), `Proofs.v` (invariants), `Props.v` (the property
  theorems, each followed by `Print Assumptions`, and `Example`s showing that a concrete, non-trivial case meets the hypotheses).
  Components that came later keep model and properties in one file per topic (`Tcp/`, `Protobuf/`, `IoUring/Cancel.v`, `DirMutex/Blocking.v`).
* Concurrency: a small-step transition system `step : state -> event -> option state` whose steps are the atomic accesses of
  the C++ code (one atomic read-modify-write, one queue operation, one critical section of a `std::mutex`/spin lock, one
  scheduler action). Theorems quantify over every finite list of events, i.e. every interleaving, with any number of threads,
  coroutines and objects. `None` means that the event is not enabled. `run`, `run_all` (a condition that holds before each event), `trace`
  (what is observable) are in `Common/TS.v`.
* The kernel, the clock, the hash-table iteration order, moodycamel's choice of element, heap algorithms, user callbacks and protobuf are
  arguments of the theorems (arbitrary functions, answer lists or events), constrained only by what their documentation promises.
* Undefined behaviour, `std::terminate` and assertion failures are distinct, recorded outcomes, never normal values.
* A property that the code violates is kept in `properties.jsonl`. `*_refuted` theorems prove its negation (a witness
  execution of the model, or, where possible, "in every state ..."); `*_partial` theorems prove the part that holds. Status: `partial`.
  A property is `proved` only if its theorems together give its full English statement.

## 2. Trusted base

* The kernel of Coq 8.16.1 (`coqc`, compiled `.vo` files checked in one build by `vcheck`).
* Axioms: none. Every property theorem is followed by `Print Assumptions`, and each prints `Closed under the global context`
  (also no standard-library axiom: no classical logic, no functional extensionality, no real numbers). `vcheck` lists seven constants
  `Coq.ssr.ssrunder.Under_rel.*`: they are parameters of a functor argument in the standard library's ssreflect files, which are loaded with
  it; no theorem depends on them.
* Libraries: Coq's standard library only (`List`, `Arith`, `ZArith`, `Bool`, `Permutation`, `Lia`, `Sorting`).
* No `Admitted`, no axioms, no module types or functors, no disabled kernel checks, no plugins. `lia`, `vm_compute` are used; what they
  produce is checked by the kernel (`vm_compute` is part of it).
* The translation from C++ to the model, by hand. Each definition cites the lines it stands for and says what it leaves out.

General simplifications, beyond those stated in the files:
 * memory orders are taken as sequentially consistent, except in Weak/ (C131, C132); races on non-atomic data are looked at only where a property is about them;
 * memory allocation does not fail; `noexcept` and exceptions are modelled where they matter (C17, C44, C50, C51, C71, C83);
 * numbers are unbounded unless their wrap-around is the point (32/64-bit arithmetic is explicit in Errors, Transfer, WaitGroup, Tcp/Deadline,
   IoUring's miss counter and Functional's dispatch counter);
 * fairness: progress properties are stated as "some step is enabled and leads there", "at most k further own steps" or "in every
   state where nothing else is in progress"; no fairness of the OS scheduler is assumed or proved.

## 3. What is modelled, what is not

| source | model |
|---|---|
| coroutine_mutex.{h,cc}, acq_lk_aw.h | `Mutex/` (atomic flag, bag of waiters, pcs of acquire/release) |
| lock_base.h, unique_lock.h, shared_lock.h | `LockBase/` |
| coroutine_shared_mutex.{h,cc} | `SharedMutex/` |
| wait_group.h (group and guard) | `WaitGroup/` |
| future.h, future.cc, future_aw.{h,cc} | `Future/` (toolpex future_frame/callback_promise: assumed) |
| timer.{h,cc}, this_task.h sleep functions | `Timer/` |
| work_stealing_queue.h, moodycamel_queue_wrapper.cc | `WSQueue/` |
| thread_pool.{h,cc}, task_scheduler.h | `ThreadPool/` |
| task.h, task_on_the_fly.h, task_release_once.h, waiting_handle.cc | `Task/` |
| generator.h, generator_shared_state.h | `Generator/` |
| iouring.{h,cc}, iouring_op_batch*.{h,cc}, cancel functions of iouring_op_functions.cc | `IoUring/` |
| iouring_ioret.{h,cc}, exceptions.{h,cc}, error_category.{h,cc} | `Errors/` |
| iouring_awaitables.{h,cc}, unique_file_state.{h,cc} | `Transfer/` |
| expected.h | `Expected/` |
| dir_mutex.{h,cc}, async_awaiting_hub.h | `DirMutex/` |
| event_loop.h, user_event_loop(s) | `EventLoop/` |
| functional.h | `Functional/` |
| std_queue_wrapper.h, local_thread_scheduler.h, invocable_queue_wrapper.{h,cc} | `Queues/` |
| tcp_server.{h,cc}, tcp_util.{h,cc}, timeout arithmetic of all overloads | `Tcp/` |
| iouring_protobuf.h | `Protobuf/` |
| task.h (operator co_await), promise_base.h, return_value_or_void.h, this_task.cc | `CoAwait/` (order of events between caller and callee) |
| iouring_op_batch.h, iouring_op_peripheral.h/.cc, iouring_op_batch_rep.h (objects: construction, move, destruction, allocators), iouring_single_op_aw.h/.cc | `BatchObj/` |

Not modelled: concepts and traits headers (compile-time only: `*_concepts.h`, `traits.h`, `macros.h`, `env.h`, `std_future_extension.h`),
`example/` other than main.cc, logging, spdlog, liburing's internals (the ring is abstract), toolpex (assumed to do what its names say), the C++ memory model except what `Weak/` has of it (happens-before for the orders the code uses).

## 4. Reading the theorems

`run (step ..) init l = Some s` reads "the history `l` is possible and ends in state `s`"; `run_all step P init l` reads "and before every
event of `l` the condition `P` holds"; `trace` is the list of observations (what callers see). `upd f k v` is `f` with `f k := v`.
Seeded bugs: `tools/seed.py` edits a scratch copy of a model, rebuilds every dependent file with broken proofs replaced by
`Admitted`, and reports all theorems that fail or rest on something that failed; results are in `seeded/LOG.jsonl`.

## 5. Findings (defects of the code shown by refuted theorems or seen while reading)

Shown by theorems: see every `_refuted` theorem in section 6; the most serious ones: mutex and wait_group lose wake-ups (C02, C07),
shared_mutex admits a reader together with a writer and loses waiters (C04, C05), tasks enqueued after `stop()` are accepted and lost (C16),
sleepers pending at `stop()` are lost (C67), a throwing generator hangs its consumer (C71), batch results are in completion order (C24),
re-executing a batch is undefined behaviour (C58), batches above 1024 entries dereference null (C59), append to plain files overwrites (C82),
end of stream spins (C49), dir_mutex loses its lock file and deadlocks all workers (C31, C61), a second `get_fd()` closes twice (C90),
port literals wrap (C62), `until_done` returns early (C89), truncated protobuf sends report success (C88),
tasks that yield can starve a task started from another thread, or on another worker (C147), `get()` called by a functor or task on a worker can block on what only that worker's event loop can complete (C156),
`cancel_all_polling()` and the destructor of a directory lock can wait for ever for pollers (C157),
`sleep_for` on a thread that is no worker writes the timer registry under a shared lock (C160),
a worker that ends with operations in the kernel destroys the buffers the kernel still writes to (C161).

Seen while reading, not expressed as theorems: `iouring_protobuf.h` has an `#endif` without `#if`; `recv_pb_message` allocates up to
4 GiB from an untrusted prefix; `bind_get_sock_tcp` ignores its `flags`; `tcp_server`'s move assignment is declared but never defined;
an accept loop whose accepts fail permanently spins without back-off.

## 6. Per property

### C01 — mutex: mutual exclusion (proved)

If one coroutine has obtained a koios::mutex (via co_await m.acquire() or a successful try_acquire()) and has not released it yet, no other coroutine obtains it: at every instant at most one coroutine is between the completion of its acquire and its unlock.

*Model and proof:* Atomic flag, bag of waiters and one program counter per coroutine; inductive invariant over all interleavings (owner token conserved), refinement of the log to the abstract lock. (`Mutex/Props.v`)

*Scope:* all interleavings at atomic-operation granularity, any number of coroutines, bag queue, spurious empty allowed

*Theorems:* `C01_mutex_mutual_exclusion`, `C01_mutex_waiters_exact`, `C01_mutex_flag_exact`

### C02 — mutex: no lost wake-up (partial)

A coroutine that suspends in co_await m.acquire() is eventually resumed as owner provided every owner eventually releases: in particular there is no reachable situation in which the mutex is free, no release is in progress and a coroutine stays suspended waiting for it.

*Model and proof:* Atomic flag, bag of waiters and one program counter per coroutine; inductive invariant over all interleavings (owner token conserved), refinement of the log to the abstract lock. (`Mutex/Props.v`, `Mutex/Stranded.v`)

*Scope:* full statement refuted (waiter enqueues after the last release looked at the queue); partial: schedules that never hit that window; stranded waiters are recovered by the next lock/unlock. C02_every_late_waiter_strands_refuted: for every history, a coroutine that reaches its enqueue while nobody owns, is handed or releases the mutex suspends on the free mutex until somebody new asks for it.

*Theorems:* `C02_mutex_no_lost_wakeup_refuted`, `C02_mutex_no_lost_wakeup_partial`, `C02_mutex_next_release_recovers`, `C02_every_late_waiter_strands_refuted`

### C03 — lock objects release exactly once (proved)

Over the whole life of any set of unique_lock/shared_lock handles, however they are moved, assigned, explicitly unlocked, re-locked and destroyed, each acquisition of the underlying mutex is released exactly once, and never by a handle that does not own it.

*Model and proof:* Table of handle objects plus the log of acquire/release calls; invariant: outstanding acquisitions = owning handles. (`LockBase/Props.v`)

*Scope:* all handle programs, single and shared handles

*Theorems:* `C03_locks_released_exactly_once`, `C03_locks_never_double_released`, `C03_locks_outstanding_exact`, `C03_unlock_only_if_owned`, `C03_unlock_idempotent`, `C03_move_ctor_transfers`, `C03_move_assign_transfers`, `C03_lock_through_handle`

### C04 — shared_mutex: readers and writers exclude each other (partial)

While a coroutine holds a koios::shared_mutex exclusively no other coroutine holds it in any mode; several coroutines may hold it shared at once, but never together with an exclusive holder.

*Model and proof:* State machine of the critical sections with ghost holders; invariants under the stated history conditions, witnesses for the refutations. (`SharedMutex/Props.v`, `SharedMutex/Waiting.v`)

*Scope:* refuted three ways; proved for all histories, waiting readers included, that do not hit one of the two defects (defects_not_hit), and for all histories in which no acquire_shared() has to wait

*Theorems:* `C04_reader_and_writer_together_refuted`, `C04_two_writers_refuted`, `C04_reentrant_writer_admits_readers_refuted`, `C04_reentrant_alone_partial`, `C04_rw_exclusion_partial`, `C04_asserts_hold_partial`, `C04_assert_fails_refuted`, `C04_rw_exclusion_with_waiting_readers_partial`

### C05 — shared_mutex: waiters make progress (partial)

When every coroutine that was granted a shared_mutex has released it, the mutex is free again and no coroutine is left suspended on it.

*Model and proof:* State machine of the critical sections with ghost holders; invariants under the stated history conditions, witnesses for the refutations. (`SharedMutex/Props.v`)

*Scope:* refuted (writers blocked forever, second reader stranded); holds for histories in which no acquire_shared() has to wait

*Theorems:* `C05_writers_blocked_forever_refuted`, `C05_second_reader_stranded_refuted`, `C05_rw_progress_partial`

### C06 — wait_group: wait() does not complete early and does not resume twice (proved)

co_await wg.wait() completes without suspending iff the counter is zero at that moment; a suspended waiter is resumed only by a done() that brings the counter to zero, and is resumed at most once.

*Model and proof:* Counter modulo 2^64, bag of waiters, two-step wait and done; refinement to an abstract automaton, invariants; guards: table of objects. (`WaitGroup/Props.v`)

*Scope:* refinement to an abstract automaton for documented use (1 <= done amount <= count, no overflow); done(0): C92

*Theorems:* `C06_wait_group_refines_spec`

### C07 — wait_group: every waiter is released (partial)

Once the counter has come back to zero and every add/done/wait call has returned, no coroutine remains suspended in wait().

*Model and proof:* Counter modulo 2^64, bag of waiters, two-step wait and done; refinement to an abstract automaton, invariants; guards: table of objects. (`WaitGroup/Props.v`, `WaitGroup/Stranded.v`)

*Scope:* refuted twice (done(n>1) to zero wakes nobody; check/enqueue race); partial theorem for the other schedules. How false: C07_every_done_of_many_strands_refuted (every history, every done(n), n > 1, that reaches zero with nobody inside done(): no waiter is resumed before the next done()) and C07_every_late_waiter_strands_refuted (every waiter that enqueues at counter zero with nobody inside done()).

*Theorems:* `C07_done_many_strands_refuted`, `C07_wait_race_strands_refuted`, `C07_waiters_released_partial`, `C07_every_done_of_many_strands_refuted`, `C07_every_late_waiter_strands_refuted`

### C08 — wait_group_guard is balanced (proved)

A wait_group_guard's registration is undone exactly once, whatever sequence of constructions, move constructions, move assignments to empty guards and destructions the guard goes through: after all guards are gone the counter is what it was before; no program undoes more than was registered.

*Model and proof:* Counter modulo 2^64, bag of waiters, two-step wait and done; refinement to an abstract automaton, invariants; guards: table of objects. (`WaitGroup/Props.v`)

*Scope:* all programs; assignment over a live guard: C80

*Theorems:* `C08_guard_balanced`, `C08_guard_never_over_undone`

### C09 — future/promise: the awaiting coroutine gets the value exactly once (proved)

If a promise is fulfilled (value or exception) and a coroutine co_awaits its future, the coroutine is resumed exactly once and obtains exactly the stored value or exception, no matter whether fulfilment happens before, during or after the co_await.

*Model and proof:* Shared state with frame slot, waiting slot and condition variable; invariants over all histories, answers characterised as functions of the log. (`Future/Props.v`)

*Scope:* one promise, one future: all schedules incl. spurious wake-ups; safety part for any number of futures; two futures: C93

*Theorems:* `C09_delivered_faithfully_at_most_once`, `C09_no_lost_wakeup`, `C09_not_resumed_before_fulfilment`, `C09_set_never_waits`

### C10 — future: get_nonblk() and ready() (proved)

get_nonblk() returns the value iff it was stored and not yet taken, throws otherwise, and never blocks; ready() reports exactly whether a result was stored and does not change what later get_nonblk() calls do.

*Model and proof:* Shared state with frame slot, waiting slot and condition variable; invariants over all histories, answers characterised as functions of the log. (`Future/Props.v`)

*Scope:* exact function of the history of calls, for every history; blocking get() is C69

*Theorems:* `C10_get_nonblk_exact`, `C10_ready_exact`

### C11 — timer: never early, exactly once, nothing lost (proved)

As long as the timer loop is used by worker threads and stop() has not been called: a coroutine sleeping until time T is resumed by the first poll of its thread's timer at a time >= T, never by a poll before T, and exactly once; other sleepers are unaffected.

*Model and proof:* Per-thread heaps with arbitrary standard-conforming push/pop, poll split at its lock release; log refinement to bags of sleepers. (`Timer/Props.v`)

*Scope:* every history of any number of registered threads, every standard-conforming heap; after stop(): C67; other threads: C68

*Theorems:* `C11_timer_exact`, `C11_registered_threads_safe`, `C11_sleep_until_duration`

### C12 — timer: sleepers expiring in one poll are resumed in deadline order (partial)

If one poll finds several sleepers expired, they are handed to the scheduler in non-decreasing order of deadline.

*Model and proof:* Per-thread heaps with arbitrary standard-conforming push/pop, poll split at its lock release; log refinement to bags of sleepers. (`Timer/Holds.v`, `Timer/Props.v`)

*Scope:* refuted: within a poll tasks are handed over in non-increasing deadline order, for every heap implementation. Also proved: across polls the order of deadlines is kept (C12_across_polls_partial).

*Theorems:* `C12_across_polls_partial`, `C12_descending_refuted`, `C12_order_refuted`

### C13 — timer: idle time never overshoots the next deadline (proved)

Until stop() is called, the maximum sleep time the timer reports to an idle worker is exactly the distance to the earliest pending deadline of that worker (0 if it has passed), and the 'infinite' duration iff nothing is pending.

*Model and proof:* Per-thread heaps with arbitrary standard-conforming push/pop, poll split at its lock release; log refinement to bags of sleepers. (`Timer/Props.v`)

*Scope:* every reachable state; after stop(): C67

*Theorems:* `C13_max_sleep_exact`

### C14 — work-stealing queue: exactly-once delivery (proved)

Every task put in the queue comes out exactly once: any sequence of enqueue/dequeue by any registered threads returns each enqueued task at most once, never invents one, and while nothing is in progress a dequeue by a registered thread returns nothing only if the queue is empty, wherever the tasks were placed.

*Model and proof:* Copy-on-write map of queues, stealing scan in steps; permutation invariant between log and contents. (`WSQueue/Props.v`)

*Scope:* all interleavings of registered threads; others: C94

*Theorems:* `C14_conservation`, `C14_quiescent_dequeue_complete`, `C14_size`, `C14_proper_use_no_ub`

### C15 — thread_pool: graceful stop executes everything accepted before it (proved)

After stop(), the workers return only when every task accepted before has been executed, including tasks those tasks enqueue meanwhile; every accepted task is executed at most once.

*Model and proof:* Worker loop with one step per atomic access, non-atomic emptiness scan, stop protocol; inductive invariants. (`ThreadPool/Props.v`)

*Scope:* all interleavings of worker loop at atomic-access granularity, non-atomic emptiness scan included

*Theorems:* `C15_executed_at_most_once`, `C15_graceful_stop_executes_everything`, `C15_workers_leave`

### C16 — thread_pool: an enqueue after stop is refused, not lost (partial)

A task handed to the pool is either eventually executed or the enqueue call reports failure; no task is accepted and silently never executed.

*Model and proof:* Worker loop with one step per atomic access, non-atomic emptiness scan, stop protocol; inductive invariants. (`ThreadPool/Props.v`)

*Scope:* refuted: enqueue after a graceful stop() is accepted and never executed; also race with quick_stop()

*Theorems:* `C16_accepted_after_stop_refuted`, `C16_race_with_quick_stop_refuted`, `C16_refused_after_quick_stop_partial`

### C17 — task: each coroutine is run at most once and destroyed exactly once (proved)

Through any sequence of moves, run(), run_and_get_future(), co_await and destruction of task handles and task_on_the_fly handles in which handles are run or called only while they own their coroutine (operator bool), a coroutine frame is started at most once, is never destroyed twice and never resumed after destruction, a suspended frame has exactly one owner, and every frame whose handles are gone has been destroyed or is running.

*Model and proof:* Heap of frames and handle objects; ownership invariant over all programs. (`Task/Count.v`, `Task/Props.v`)

*Scope:* all finite programs within the documented use (a throwing await_suspend and quick_stop are C50/C51); misuse is C70

*Theorems:* `C17_resumed_once_per_suspension`, `C17_no_ub`, `C17_started_and_destroyed_at_most_once`, `C17_exactly_one_owner`, `C17_no_leak`

### C18 — task_release_once: exactly one of the racing releasers gets the task (proved)

If several parties call release() on the same task_release_once, exactly one receives the task and all others receive nothing.

*Model and proof:* Heap of frames and handle objects; ownership invariant over all programs. (`Task/Props.v`)

*Scope:* any number of callers, all interleavings of compare-exchange and move

*Theorems:* `C18_at_most_one_gets_it`, `C18_exactly_one_gets_it`, `C18_winner_exists`, `C18_one_owner`

### C19 — generator: values arrive in yield order, then end (proved)

For a generator whose body does not throw: repeated co_await gen.next_value_async() returns exactly the sequence of values the body co_yields, in order and without duplicates, then nullopt for every further call; every call returns; the body runs only on demand, at most one value ahead of what was requested.

*Model and proof:* Generator and consumer as two interleaved state machines; invariant relating yielded, received and pending values. unique/merge: functional programs on lists. (`Generator/Props.v`)

*Scope:* all interleavings of one consumer and the generator, all value lists; bodies that throw: C71

*Theorems:* `C19_values_in_order`, `C19_no_assertion_fails`, `C19_on_demand`, `C19_call_returns`, `C19_every_call_answered`

### C20 — generator: unique() has the semantics of std::unique (proved)

Filtering a generator with unique() yields, for each maximal run of equivalent consecutive values, exactly the first of the run, in order.

*Model and proof:* Generator and consumer as two interleaved state machines; invariant relating yielded, received and pending values. unique/merge: functional programs on lists. (`Generator/Props.v`)

*Scope:* for every sequence and every binary predicate (runs are compared with their first element)

*Theorems:* `C20_unique`, `C20_no_equal_neighbours`

### C21 — generator: merge() of two sorted generators is a sorted merge (proved)

merge(a,b) yields every value of both inputs exactly once, each input in its own order; if both inputs are sorted under the comparator (a strict weak order) the output is sorted.

*Model and proof:* Generator and consumer as two interleaved state machines; invariant relating yielded, received and pending values. unique/merge: functional programs on lists. (`Generator/Props.v`)

*Scope:* for every pair of value lists and every comparator; ties: C72

*Theorems:* `C21_interleaving`, `C21_permutation`, `C21_sorted`

### C22 — io_uring: a batch resumes its coroutine exactly once, after all completions, with its own results (proved)

A coroutine that executes an operation batch is resumed exactly once, precisely when the completion of every operation of its batch has been received; it never sees completions of another batch, and no completion is lost or duplicated.

*Model and proof:* Batch builder, ring per thread, kernel as environment; invariants by induction on histories, list lemmas for the builder. (`IoUring/Props.v`)

*Scope:* any number of threads/rings, coroutines, batches; kernel takes entries at any submit and completes in any order; hypothesis: each batch executed once, not touched while executing, fits the submission queue (C58/C59 cover the rest)

*Theorems:* `C22_resumed_once_with_its_own_results`, `C22_not_resumed_means_not_complete`, `C22_completed_batches_are_resumed`

### C23 — op_batch: operations keep submission order, are linked, and a timeout is always last (proved)

Whatever the order in which operations and a timeout are added to a batch, what is submitted is the operations in the order they were added, each linked to the next, followed by at most one timeout entry carrying the most recently given deadline; the last entry is not linked.

*Model and proof:* Batch builder, ring per thread, kernel as environment; invariants by induction on histories, list lemmas for the builder. (`IoUring/Props2.v`)

*Scope:* all call sequences on a new batch before its first execution; reuse after execution is C58

*Theorems:* `C23_submission_order`, `C23_handed_to_the_ring`

### C24 — op_batch: the k-th result is the result of the k-th operation (partial)

After execution, the k-th return slot of the batch is the completion of the k-th submitted operation.

*Model and proof:* Batch builder, ring per thread, kernel as environment; invariants by induction on histories, list lemmas for the builder. (`IoUring/Props2.v`)

*Scope:* refuted: slots are in completion order, and is_timeout/single-operation results then misreport; partial: holds when the kernel completes the batch's entries in submission order

*Theorems:* `C24_slots_in_order_partial`, `C24_slots_in_order_refuted`, `C24_status_in_order_partial`, `C24_status_without_deadline`

### C25 — I/O result decoding (proved)

The result object of an I/O operation reports success iff the kernel's return value is non-negative; nbytes_delivered is the byte count on success and 0 on failure; get_fd and friends throw exactly on failure.

*Model and proof:* Pure functions on integers; case analysis over all 32-bit values / all classes. (`Errors/Props.v`)

*Scope:* for every 32-bit kernel answer but INT_MIN (never returned by the kernel) and every errno

*Theorems:* `C25_success_iff`, `C25_nbytes`, `C25_get_throws_iff_error`

### C26 — append_all writes the whole buffer exactly once, in order (proved)

On a device where each write appends (pipe, socket, O_APPEND file): if append_all completes without error, the bytes accepted by write(), in order, are exactly the buffer: no byte skipped, repeated or reordered, whatever short writes occur; on an error it stops and what was accepted is a prefix of the buffer. It ends after at most one write per byte if every successful write accepts at least one byte.

*Model and proof:* The loops as recursive functions on the list of kernel answers; induction on it. (`Transfer/Props.v`)

*Scope:* for every buffer and kernel; plain files, zero-byte answers and 2^32-byte buffers: C82

*Theorems:* `C26_append_all_exact`, `C26_append_all_terminates`

### C27 — recv_fill_buffer / read_fill_buffer fill a prefix in order (proved)

If no awaited operation throws: the returned byte count n satisfies n <= buffer size, exactly the first n bytes of the buffer have been filled with the received bytes in order (for a file: the bytes from the given offset on), and n < size implies an error was reported or the deadline passed.

*Model and proof:* The loops as recursive functions on the list of kernel answers; induction on it. (`Transfer/Outcome.v`, `Transfer/Props.v`)

*Scope:* all kernel behaviours (short reads, errors, timeouts, end of file); exceptions and the throwing overloads: C83

*Theorems:* `C27_fill_waits_only_for_bytes`, `C27_fill_prefix`, `C27_read_file_section`, `C27_throwing_overloads`

### C28 — unique_file_state::append appends the buffer exactly once (partial)

A completed append() has written exactly the given bytes once, in order, whatever short writes occur.

*Model and proof:* The loops as recursive functions on the list of kernel answers; induction on it. (`Transfer/Props.v`)

*Scope:* refuted for short writes, counter wrap and the constructor; holds when a write is complete

*Theorems:* `C28_complete_write_partial`, `C28_what_is_written`, `C28_short_write_refuted`, `C28_counter_wraps_refuted`, `C28_constructor_refuted`

### C29 — expected: and_then/transform-style combinators obey the monad laws and propagate errors (proved)

and_then on a value applies the function to that value exactly once and returns its result; on an error it returns that error unchanged without calling the function; chains associate.

*Model and proof:* Sum type with effectful functions over an arbitrary world; equational proofs. (`Expected/Props.v`)

*Scope:* for every effectful, possibly throwing function; also the void specialisation

*Theorems:* `C29_and_then_value`, `C29_and_then_error`, `C29_and_then_assoc`, `C29_identity_laws`, `C29_accessors`, `C29_has_value_iff`, `C29_object_keeps_its_state`, `C29_void_and_then`, `C29_void_assoc`

### C30 — dir_mutex: at most one holder per directory (proved)

For any number of dir_mutex objects (in any number of processes) on the same directory, at most one coroutine holds the lock at any time, as long as no dir_mutex object is destroyed while others are in use.

*Model and proof:* Lock file, objects, pollers, hubs; one step per openat/unlinkat/queue operation; invariant counting the owner of the file. (`DirMutex/Props.v`)

*Scope:* for schedules without destruction, as the statement says; destruction: C95

*Theorems:* `C30_dir_mutex_exclusive`

### C31 — dir_mutex: waiters make progress (partial)

If every holder eventually unlocks, the lock file does not remain without a holder and every waiting coroutine eventually obtains the lock.

*Model and proof:* Lock file, objects, pollers, hubs; one step per openat/unlinkat/queue operation; invariant counting the owner of the file. (`DirMutex/Props.v`)

*Scope:* False of the code: a poller whose waiter was already served creates the lock file for nobody, and the lock is lost for ever (refuted theorem, permanence proved from every reachable orphan state). Partial: in schedules where a poller that gets the file finds a waiter, the file always has an owner and a live poller can serve the queue.

*Theorems:* `C31_dir_mutex_progress_refuted`, `C31_dir_mutex_orphan_is_permanent_refuted`, `C31_dir_mutex_progress_partial`

### C32 — user event loops: each loop is prepared exactly once on each worker thread (proved)

Whatever the order in which user loops are added and worker threads prepared, as long as no worker thread has ended, each user loop's thread preparation runs exactly once per worker thread.

*Model and proof:* Tables of loops and threads, aggregate polling, shared static vector; invariants and fold lemmas. (`EventLoop/Props.v`)

*Scope:* every interleaving; after a worker ended: C74

*Theorems:* `C32_prepared_exactly_once`, `C32_no_ub_while_workers_live`

### C33 — event loop aggregate polls every loop and sleeps no longer than any allows (proved)

One round of polling polls every component loop exactly once, in order, whatever the earlier ones answer; in a process with one event loop the idle time offered to a worker is the minimum of what all component loops allow; after stop() adding an event is refused.

*Model and proof:* Tables of loops and threads, aggregate polling, shared static vector; invariants and fold lemmas. (`EventLoop/Props.v`)

*Scope:* every interleaving of the workers of one event loop; two event loops / quick_stop: C75

*Theorems:* `C33_polls_every_loop`, `C33_user_loops`, `C33_sleep_is_minimum`, `C33_user_loops_sleep`, `C33_refused_after_stop`, `C33_accepted_until_stop`

### C34 — for_each_dispatch_evenly distributes evenly and completely (proved)

Each element is dispatched to exactly one of the n functions, and after any number of dispatches the loads of any two of them differ by at most one.

*Model and proof:* Await loops as a transition system over launches and completions; dispatch counter arithmetic. (`Functional/Props.v`)

*Scope:* all callers together and every window of dispatches, every start value of the shared counter, up to the wrap of the 64-bit counter; t >= 1 workers

*Theorems:* `C34_even`, `C34_even_window`, `C34_complete`

### C35 — co_await_all returns results in argument order; for_each runs every element once (proved)

co_await_all(f1..fn) yields exactly the list of the n results in the order of the futures, or the exception of the first failing one, whatever order they complete in, and always can complete; for_each applies the function to no element twice, and to every element if it returns normally.

*Model and proof:* Await loops as a transition system over launches and completions; dispatch counter arithmetic. (`Functional/Props.v`)

*Scope:* every completion order; elements after an exception: C76; parallelism: C52

*Theorems:* `C35_results_in_range_order`, `C35_can_always_finish`, `C35_always_ends`, `C35_for_each_once`

### C36 — tcp server: address literal parsing (proved)

Constructing a tcp server from the literal "ADDR:PORT", PORT a decimal number in 0..65535, listens on exactly that address and port (ADDR being everything before the last colon, so IPv6 addresses work); a literal without a port, or with an address that is refused, throws.

*Model and proof:* Accept loops and until_done as a transition system; parsing and deadline arithmetic as functions. (`Tcp/Literal.v`)

*Scope:* for every address string and every decimal rendering of a port; ip_address::make (toolpex) is an arbitrary function

*Theorems:* `C36_address_and_port`, `C36_no_port_rejected`, `C36_address_is_what_precedes_the_last_colon`

### C37 — tcp server: every client is handed over exactly once (proved)

Every connection accepted by the tcp server is handed to the callback exactly once, in every schedule, however the server is used.

*Model and proof:* Accept loops and until_done as a transition system; parsing and deadline arithmetic as functions. (`Tcp/ServerProps.v`)

*Scope:* all schedules, any number of accept loops

*Theorems:* `C37_each_client_handed_once`

### C38 — deplete_send_buffer reports success only when nothing is outstanding (proved)

For a timeout such that now + timeout is representable: it returns true exactly if its last look at the socket's outgoing queue found it empty, an error code exactly if the last ioctl failed, and false without error only when less than one polling period (1 ms) was left; it polls at most timeout/1ms + 1 times and is over no later than the lateness of one 1 ms sleep after the deadline.

*Model and proof:* Accept loops and until_done as a transition system; parsing and deadline arithmetic as functions. (`Tcp/Deplete.v`)

*Scope:* all queue-length/error sequences, all clocks; the bound on lateness is relative to the timer's lateness; overflow of the deadline is C65

*Theorems:* `C38_result_exact`, `C38_returns_in_time`, `C38_polls_bounded`

### C39 — protobuf framing: what is sent is what is received (proved)

The length prefix round-trips for every size; a message (up to 2^31-1 bytes) framed this way is received intact, and so are any number of messages one after the other, in whatever pieces the kernel delivers the stream and whatever follows, provided no deadline passes while the prefix is read.

*Model and proof:* Framing as functions over kernel answers, on top of the fill model. (`Protobuf/Framing.v`)

*Scope:* every message, fragmentation and continuation; failure reporting: C88. The header has an unbalanced #endif and cannot be compiled as it is.

*Theorems:* `C39_length_prefix_round_trips`, `C39_incomplete_message_is_not_sent`, `C39_received_intact`, `C39_receiver_outcome`, `C39_whole_frame_is_parsed`, `C39_size_of_any_frame`, `C39_stream_of_messages`

### C40 — exceptions carry the error they were built from (proved)

Every exception class of the library except uring_exception and socket_exception, constructed from an error code, returns that error code from error_code(), also through a base reference.

*Model and proof:* Pure functions on integers; case analysis over all 32-bit values / all classes. (`Errors/Props.v`)

*Scope:* all classes but these two, all error codes; the two: C81

*Theorems:* `C40_error_code_kept`, `C40_int_code_kept`, `C40_int_category`

### C41 — scheduler queues are FIFO and the single-threaded scheduler drains everything (proved)

std_queue_wrapper returns tasks in enqueue order; run() of the single-threaded scheduler executes every enqueued task, including tasks enqueued by running tasks and after a task threw, and returns with an empty queue.

*Model and proof:* List queue; big-step scheduler over spawn trees; object table for the type-erased wrapper. (`Queues/Props.v`)

*Scope:* FIFO for all operation sequences; single-threaded scheduler: all spawn trees with throws, by induction on the tree

*Theorems:* `C41_fifo`, `C41_dequeue_none_iff_empty`, `C41_local_scheduler_drains`

### C42 — io_uring loop: idle back-off is bounded and disabled while I/O is pending (proved)

Until stop() the idle time the io_uring loop offers is between 0 and 200 ms for every number of consecutive empty polls (including wrap-around of the miss counter), doubles up from 0 with consecutive misses, and is zero whenever an operation is outstanding on the calling thread.

*Model and proof:* Batch builder, ring per thread, kernel as environment; invariants by induction on histories, list lemmas for the builder. (`IoUring/Props2.v`)

*Scope:* every reachable state before a graceful stop, 32-bit counter

*Theorems:* `C42_idle_time_bounded`, `C42_no_idling_while_outstanding`, `C42_back_off`, `C42_polls_drive_the_back_off`, `C42_idle_time`

### C43 — cancel requests match what was asked (proved)

cancel_first(u) cancels exactly one pending operation with user data u if there is one and reports not-found otherwise; op_batch::prep_cancel_all(u) cancels all of them and no other.

*Model and proof:* Batch builder, ring per thread, kernel as environment; invariants by induction on histories, list lemmas for the builder. (`IoUring/Cancel.v`)

*Scope:* for every set of pending operations

*Theorems:* `C43_cancel_first`, `C43_batch_cancel_all`

### C44 — stop operations are idempotent and return only after workers ended (proved)

Calling stop/quick_stop any number of times from any threads that are not workers performs the shutdown exactly once, terminates nothing, and each call returns only after all workers have ended.

*Model and proof:* Worker loop with one step per atomic access, non-atomic emptiness scan, stop protocol; inductive invariants. (`ThreadPool/Props.v`, `ThreadPool/Turns.v`)

*Scope:* all schedules; stop() on a worker thread: C78

*Theorems:* `C44_shutdown_once`, `C44_stop_returns_after_workers_ended`, `C44_not_terminated`, `C44_every_call_returns_once`

### C45 — wait_group: a waiter is resumed because the counter reached zero after it began to wait (partial)

Between the moment a coroutine calls wait() and the moment it is resumed there is a moment at which the counter is zero.

*Model and proof:* Counter modulo 2^64, bag of waiters, two-step wait and done; refinement to an abstract automaton, invariants; guards: table of objects. (`WaitGroup/Props.v`)

*Scope:* refuted under reuse while draining; holds if no add() happens while a done() drains

*Theorems:* `C45_resumed_without_zero_refuted`, `C45_woken_at_zero_partial`

### C46 — shared_mutex::try_acquire obtains a free mutex (partial)

co_await m.try_acquire() on a shared_mutex nobody holds or waits for yields the lock; it never yields the lock while somebody else holds it.

*Model and proof:* State machine of the critical sections with ghost holders; invariants under the stated history conditions, witnesses for the refutations. (`SharedMutex/Props.v`, `SharedMutex/Waiting.v`)

*Scope:* refuted: try_acquire never succeeds; proved: it never waits, never succeeds while held

*Theorems:* `C46_try_acquire_never_succeeds_refuted`, `C46_try_acquire_never_waits_partial`

### C47 — suspending in acquire_shared does not touch a resumed coroutine (partial)

While one thread is still executing the suspension of co_await m.acquire_shared(), another thread may already resume that coroutine; the suspending thread then does not access the coroutine's frame or the awaitable stored in it.

*Model and proof:* State machine of the critical sections with ghost holders; invariants under the stated history conditions, witnesses for the refutations. (`SharedMutex/Holds.v`, `SharedMutex/Props.v`)

*Scope:* refuted by a schedule; holds when no acquire_shared() has to wait (C04_asserts_hold_partial). Also proved: the late access happens only in executions where an acquire_shared() waits (C47_only_where_a_reader_waits_partial).

*Theorems:* `C47_only_where_a_reader_waits_partial`, `C47_acquire_shared_use_after_free_refuted`

### C48 — a descriptor produced by an operation has exactly one owner (proved)

The descriptor produced by a successful socket/openat/accept operation is closed exactly once over the life of the program if the program takes it from the result object exactly once.

*Model and proof:* Pure functions on integers; case analysis over all 32-bit values / all classes. (`Errors/Props.v`)

*Scope:* all programs with one get_fd/get_client; otherwise C90

*Theorems:* `C48_closed_exactly_once`

### C49 — fill calls return at end of stream (partial)

recv_fill_buffer / read_fill_buffer return after the peer closed the connection or the file ended, with or without a deadline.

*Model and proof:* The loops as recursive functions on the list of kernel answers; induction on it. (`Transfer/Props.v`)

*Scope:* refuted: zero-byte answers are retried forever; returns if every successful answer has at least a byte

*Theorems:* `C49_eof_spins_refuted`, `C49_returns_partial`

### C50 — awaiting a timer or IO operation on a stopping runtime fails cleanly (partial)

If a coroutine awaits a timer or IO operation after stop() was called, the refusal is delivered to the coroutine as an exception and the coroutine stays valid.

*Model and proof:* Heap of frames and handle objects; ownership invariant over all programs. (`Task/Props.v`)

*Scope:* refuted: the by-value handle destroys the frame while the exception leaves await_suspend, the exception is then rethrown in the destroyed frame

*Theorems:* `C50_await_on_stopping_loop_refuted`

### C51 — quick_stop does not bring the process down (partial)

After quick_stop()/runtime_exit(), tasks that are still running may wake or start other coroutines; these are dropped without std::terminate being called.

*Model and proof:* Heap of frames and handle objects; ownership invariant over all programs. (`Task/AfterStop.v`, `Task/Props.v`)

*Scope:* refuted: enqueue_no_future throws inside noexcept task_scheduler::enqueue; without quick_stop no terminate (partial theorem) C51_every_start_after_quick_stop_refuted: for every history with a quick_stop() in it and every task object that still owns its unstarted coroutine and its future, run(), run_and_get_future() and co_await end the process.

*Theorems:* `C51_every_start_after_quick_stop_refuted`, `C51_wake_up_after_quick_stop_refuted`, `C51_run_after_quick_stop_refuted`, `C51_no_terminate_without_quick_stop_partial`

### C52 — for_each runs the elements in parallel (partial)

for_each launches the coroutine for every element of the range and only then waits, so that elements run in parallel (as its documentation says).

*Model and proof:* Await loops as a transition system over launches and completions; dispatch counter arithmetic. (`Functional/Props.v`)

*Scope:* refuted: the transform view is lazy, an element is launched only after the previous one completed; co_await_all over futures obtained beforehand is parallel

*Theorems:* `C52_for_each_is_sequential_refuted`, `C52_co_await_all_is_parallel_partial`

### C53 — for_each_dispatch_evenly distributes the items of each call evenly (partial)

Each call of for_each_dispatch_evenly spreads its own elements over the worker threads with loads differing by at most one, also when several calls run concurrently.

*Model and proof:* Await loops as a transition system over launches and completions; dispatch counter arithmetic. (`Functional/Holds.v`, `Functional/Props.v`)

*Scope:* refuted for concurrent calls; an uninterrupted call is even (C34_even_window). Also proved for every execution: an uninterrupted call spreads its k draws evenly over any window length (C53_uninterrupted_call_partial).

*Theorems:* `C53_uninterrupted_call_partial`, `C53_concurrent_calls_uneven_refuted`

### C54 — type-erased queue wrapper destroys its queue exactly once (proved)

Through any sequence of constructions, moves and destructions of invocable_queue_wrapper objects, each wrapped queue is destroyed exactly once, when its last holder dies; using a wrapper that was not moved from is always valid.

*Model and proof:* List queue; big-step scheduler over spawn trees; object table for the type-erased wrapper. (`Queues/Props.v`)

*Scope:* all sequences in which moved-from wrappers are not used

*Theorems:* `C54_destroyed_exactly_once`, `C54_moved_from_use_undefined`

### C55 — user event loops: stop() reaches every user loop added before it (proved)

A user loop receives stop() iff stop() of the event loop is called at some time after the loop was added.

*Model and proof:* Tables of loops and threads, aggregate polling, shared static vector; invariants and fold lemmas. (`EventLoop/Props.v`)

*Scope:* exact characterisation over all histories; loops added after stop(): C84

*Theorems:* `C55_registered_are_stopped`

### C56 — generator: destruction destroys a suspended body (proved)

Destroying the generator object while its body is suspended destroys the body (its local variables) before the destructor returns.

*Model and proof:* Generator and consumer as two interleaved state machines; invariant relating yielded, received and pending values. unique/merge: functional programs on lists. (`Generator/Props.v`)

*Scope:* every reachable state

*Theorems:* `C56_destructor_destroys_suspended`, `C56_body_does_not_outlive_the_object`

### C57 — generator: objects own their body exactly (proved)

Through any sequence of constructions, moves, move assignments to empty generators and destructions of generator objects, every living generator body is held by exactly one object, so it is destroyed when no object holds it any more.

*Model and proof:* Generator and consumer as two interleaved state machines; invariant relating yielded, received and pending values. unique/merge: functional programs on lists. (`Generator/Props.v`)

*Scope:* all programs; assignment over a live generator: C86

*Theorems:* `C57_no_leak`

### C58 — op_batch: a batch can be cleared and executed again (partial)

After an execution a batch can be cleared, refilled and executed again; the coroutine is resumed exactly when all operations of the new execution completed, and sees only their results.

*Model and proof:* Batch builder, ring per thread, kernel as environment; invariants by induction on histories, list lemmas for the builder. (`IoUring/Again.v`, `IoUring/Props2.v`)

*Scope:* refuted in all forms (UB after clear with a deadline, never resumed, resumed early); C22 is what holds for single-use batches For every history: a batch with at least as many results as entries that is executed again is not resumed for that execution as long as no further call is made on it (C58_again_never_resumes_refuted).

*Theorems:* `C58_again_never_resumes_refuted`, `C58_clear_refuted`, `C58_second_execution_never_resumes_refuted`, `C58_second_execution_resumes_early_refuted`

### C59 — op_batch: a batch of any size can be executed (partial)

Executing a batch with any number of operations submits all of them.

*Model and proof:* Batch builder, ring per thread, kernel as environment; invariants by induction on histories, list lemmas for the builder. (`IoUring/Props2.v`)

*Scope:* refuted for every batch of more than 1024 entries; batches that fit are accepted

*Theorems:* `C59_large_batch_refuted`, `C59_batch_that_fits_partial`

### C60 — io_uring loop: stop takes effect on every worker thread (partial)

After stop() or quick_stop() of the io_uring loop returned, no worker thread accepts or completes further io_uring operations.

*Model and proof:* Batch builder, ring per thread, kernel as environment; invariants by induction on histories, list lemmas for the builder. (`IoUring/Props2.v`)

*Scope:* refuted: only the calling thread's ring is stopped; on that thread it takes effect

*Theorems:* `C60_stop_reaches_every_thread_refuted`, `C60_own_thread_partial`

### C61 — dir_mutex: unlock() returns (partial)

Releasing a dir_mutex (guard destructor or unlock()) returns even when other tasks release dir_mutexes at the same time, whatever the number of workers.

*Model and proof:* Lock file, objects, pollers, hubs; one step per openat/unlinkat/queue operation; invariant counting the owner of the file. (`DirMutex/Blocking.v`)

*Scope:* False of the code for every pool size n: n simultaneous unlocks block all workers for ever (refuted theorem). Partial: with at least one worker outside unlock(), each unlock in progress can complete.

*Theorems:* `C61_dir_mutex_unlock_returns_refuted`, `C61_dir_mutex_unlock_returns_partial`

### C62 — tcp server: malformed ports in literals are rejected (partial)

A literal whose port is outside 0..65535, not a number, negative, or followed by junk is rejected.

*Model and proof:* Accept loops and until_done as a transition system; parsing and deadline arithmetic as functions. (`Tcp/Literal.v`)

*Scope:* False of the code for all of them (refuted theorems quantify over all such strings): atoi plus a cast to 16 bits; values beyond int are undefined behaviour. Only the missing colon is rejected (C36). What is rejected where the behaviour is defined: exactly the literals without a colon and those whose address is refused (C62_what_is_rejected_partial).

*Theorems:* `C62_port_out_of_range_refuted`, `C62_malformed_port_refuted`, `C62_blanks_accepted_refuted`, `C62_what_is_rejected_partial`

### C63 — tcp server: a started server can be moved (partial)

Moving a started tcp_server object leaves its behaviour alone: until_done on the new object still waits for stop() and the accept loops.

*Model and proof:* Accept loops and until_done as a transition system; parsing and deadline arithmetic as functions. (`Tcp/Moved.v`, `Tcp/ServerProps.v`)

*Scope:* False of the code from every reachable started state (the wait group is not moved, and the loops keep using the old object). Moving before start() is covered by C37's partial theorem. What holds: moves before start() change nothing (C63_moved_before_start_partial), and the accept loops, the clients handed over and the stop flag do not depend on moves at any time (C63_loops_do_not_notice_partial).

*Theorems:* `C63_moved_before_start_partial`, `C63_loops_do_not_notice_partial`, `C63_move_after_start_refuted`

### C64 — tcp server: stop() ends the accept loops, nothing else does (proved)

After stop() every accept loop finishes within a bounded number of its own steps, provided the kernel answers its accepts; without stop() no answer of accept ends a loop.

*Model and proof:* Accept loops and until_done as a transition system; parsing and deadline arithmetic as functions. (`Tcp/ServerProps.v`)

*Scope:* at most three steps per loop after stop(); loops_idle implies all ended

*Theorems:* `C64_loops_end_after_stop`, `C64_loops_survive_errors`

### C65 — timeouts in milliseconds become the right deadline (proved)

Every function taking a timeout in milliseconds gives its operation the deadline now + timeout whenever that is representable.

*Model and proof:* Accept loops and until_done as a transition system; parsing and deadline arithmetic as functions. (`Tcp/Deadline.v`)

*Scope:* all overloads, all clocks; milliseconds::max() and overflow: C87

*Theorems:* `C65_deadline_exact`

### C66 — mutex: try_acquire never waits (proved)

co_await m.try_acquire() completes at once, never suspends the caller, obtains the lock exactly when nobody owns it, nobody is being handed it and no release is in its wake-up phase, and disturbs no other waiter; co_await m.acquire() that cannot complete at once always becomes a queued waiter. unlock() never waits: it finishes after at most three more steps of its own.

*Model and proof:* Atomic flag, bag of waiters and one program counter per coroutine; inductive invariant over all interleavings (owner token conserved), refinement of the log to the abstract lock. (`Mutex/Props.v`)

*Scope:* every reachable state; try_acquire may also be refused while a release is in its wake-up phase although nobody owns the mutex (stated, with an example)

*Theorems:* `C66_mutex_try_acquire_decides_at_once`, `C66_mutex_acquire_owns_or_waits`, `C66_mutex_unlock_never_waits`

### C67 — timer: sleepers pending at stop() are still resumed (partial)

Coroutines that sleep when stop() is called are resumed once their deadline has passed (stop() lets the accepted work finish), and the idle time reported meanwhile does not overshoot their deadlines.

*Model and proof:* Per-thread heaps with arbitrary standard-conforming push/pop, poll split at its lock release; log refinement to bags of sleepers. (`Timer/Props.v`, `Timer/Stop.v`)

*Scope:* False of the code: no continuation ever resumes a sleeper pending at stop(); the idle time becomes infinite (both refuted theorems quantify over all continuations / concrete reachable state). After any history with a stop and no poll under way nobody is ever resumed and every thread is told that nothing is pending (C67_everybody_is_lost_refuted, C67_idle_time_infinite_refuted). What holds: a poll under way when stop() comes still resumes all the sleepers of its thread that are due (C67_poll_under_way_partial).

*Theorems:* `C67_sleepers_at_stop_lost_refuted`, `C67_idle_time_after_stop_refuted`, `C67_everybody_is_lost_refuted`, `C67_idle_time_infinite_refuted`, `C67_poll_under_way_partial`

### C68 — timer: usable from any thread (partial)

A coroutine that runs on a thread which is not a registered worker can sleep.

*Model and proof:* Per-thread heaps with arbitrary standard-conforming push/pop, poll split at its lock release; log refinement to bags of sleepers. (`Timer/Props.v`)

*Scope:* False of the code: null pointer dereference, in every state (refuted).

*Theorems:* `C68_foreign_thread_refuted`

### C69 — future: blocking get() (partial)

get() returns the stored result as soon as the promise is fulfilled, also after ready() was called, and does not return before.

*Model and proof:* Shared state with frame slot, waiting slot and condition variable; invariants over all histories, answers characterised as functions of the log. (`Future/Props.v`)

*Scope:* False of the code twice: get() after a ready() that answered true blocks for ever; a spurious wake-up makes get() throw. Partial: without either, get() returns exactly the stored result.

*Theorems:* `C69_ready_then_get_blocks_refuted`, `C69_spurious_wakeup_refuted`, `C69_blocking_get_partial`

### C70 — task: misuse of an empty handle is detected (partial)

run() on a task that was already run or moved from, and calling a moved-from task_on_the_fly, is harmless or reports an error.

*Model and proof:* Heap of frames and handle objects; ownership invariant over all programs. (`Task/Props.v`, `Task/UsedUp.v`)

*Scope:* False of the code: undefined behaviour in all three cases (refuted).

*Theorems:* `C70_run_twice_refuted`, `C70_run_moved_from_refuted`, `C70_call_moved_from_refuted`, `C70_used_up_task_reports`, `C70_await_without_future_reports`, `C70_run_eager_harmless`, `C70_unused_task_works`

### C71 — generator: an exception in the body reaches the consumer (partial)

If the generator body throws, the consumer that asked for the value receives the exception (or at least the end of the sequence).

*Model and proof:* Generator and consumer as two interleaved state machines; invariant relating yielded, received and pending values. unique/merge: functional programs on lists. (`Generator/Holds.v`, `Generator/Props.v`)

*Scope:* False of the code: the consumer stays suspended for ever (refuted for all schedules). Also proved: up to the exception the consumer gets exactly the yielded values in order (C71_values_before_the_exception_partial).

*Theorems:* `C71_values_before_the_exception_partial`, `C71_exception_refuted`

### C72 — generator: merge() is stable like std::merge (partial)

On ties merge(a,b) yields the values of the first input before the equivalent values of the second.

*Model and proof:* Generator and consumer as two interleaved state machines; invariant relating yielded, received and pending values. unique/merge: functional programs on lists. (`Generator/Holds.v`, `Generator/Props.v`)

*Scope:* False of the code: merge(l,r) is std::merge(r,l) for all inputs (theorem). Also proved: without equivalent elements across the two inputs the result is std::merge (C72_without_ties_partial).

*Theorems:* `C72_without_ties_partial`, `C72_ties_refuted`

### C73 — I/O results report exactly the kernel error (partial)

On failure the result object reports exactly the error the kernel returned.

*Model and proof:* Pure functions on integers; case analysis over all 32-bit values / all classes. (`Errors/Props.v`, `Errors/Stale.v`)

*Scope:* False of the code for -EPERM with a stale errno (refuted); exact for every other failure. C73_every_stale_errno_refuted and C73_exact_iff_partial: over all failures and all values of errno the report is exact except precisely for -EPERM with a leftover errno that is neither 0 nor EPERM.

*Theorems:* `C73_error_exact_partial`, `C73_stale_errno_refuted`, `C73_every_stale_errno_refuted`, `C73_exact_iff_partial`

### C74 — user event loops: a loop can be added at any time (partial)

Adding a user loop after a worker thread has ended is safe.

*Model and proof:* Tables of loops and threads, aggregate polling, shared static vector; invariants and fold lemmas. (`EventLoop/Holds.v`, `EventLoop/Late.v`, `EventLoop/Props.v`)

*Scope:* False of the code: the ended thread's attribute object is dereferenced (refuted). Also proved: as long as every add_loop happens before the first worker exit, no undefined behaviour (C74_added_while_all_workers_run_partial). C74_add_after_any_worker_exit_refuted: for every history in which a worker has ended, the next add_loop() of a new loop uses the attribute object of the ended thread.

*Theorems:* `C74_added_while_all_workers_run_partial`, `C74_add_after_any_worker_exit_refuted`, `C74_add_loop_after_worker_exit_refuted`

### C75 — event loops do not disturb each other; quick_stop refuses events (partial)

Two event loops of one process compute their idle times independently; after quick_stop() adding an event is refused.

*Model and proof:* Tables of loops and threads, aggregate polling, shared static vector; invariants and fold lemmas. (`EventLoop/Holds.v`, `EventLoop/Props.v`)

*Scope:* False of the code: the function-local static vector is shared between event loops (data race, wrong minimum); quick_stop() does not set the flag that refuses events. Also proved: if the event loops use max_sleep_duration one at a time the answer is the minimum (C75_idle_times_one_at_a_time_partial).

*Theorems:* `C75_idle_times_one_at_a_time_partial`, `C75_two_event_loops_refuted`, `C75_accepted_after_quick_stop_refuted`

### C76 — for_each runs every element even if one throws (partial)

for_each applies the function to every element exactly once also when the function throws for some element.

*Model and proof:* Await loops as a transition system over launches and completions; dispatch counter arithmetic. (`Functional/Holds.v`, `Functional/Props.v`)

*Scope:* False of the code: no element after the first failing one is ever run (theorem for all schedules). Also proved: up to and including the first failure everything runs in order (C76_up_to_the_first_failure_partial).

*Theorems:* `C76_up_to_the_first_failure_partial`, `C76_for_each_exception_refuted`

### C77 — io_uring loop: no idling with I/O outstanding while stopping (partial)

The idle time is zero while an operation is outstanding also after stop() was called.

*Model and proof:* Batch builder, ring per thread, kernel as environment; invariants by induction on histories, list lemmas for the builder. (`IoUring/Props2.v`, `IoUring/Stop.v`)

*Scope:* False of the code: 10 s are offered (refuted). So for every history with a stop() and every thread (C77_always_ten_seconds_refuted). What holds: after quick_stop() alone the idle time is zero while something is outstanding (C77_after_quick_stop_partial).

*Theorems:* `C77_after_stop_refuted`, `C77_always_ten_seconds_refuted`, `C77_after_quick_stop_partial`

### C78 — stop() can be called from a task (partial)

A task may stop the pool it runs on.

*Model and proof:* Worker loop with one step per atomic access, non-atomic emptiness scan, stop protocol; inductive invariants. (`ThreadPool/Holds.v`, `ThreadPool/Props.v`)

*Scope:* False of the code: join() of the own thread throws inside a noexcept function, std::terminate (refuted). Also proved for all schedules: terminated exactly if the first stop() of all comes from a worker (C78_exactly_the_first_from_a_worker_partial).

*Theorems:* `C78_exactly_the_first_from_a_worker_partial`, `C78_stop_from_task_refuted`

### C79 — cancel_all and number_canceled (partial)

The free function cancel_all(u) cancels all operations with user data u; cancel_any(fd,u) only those on that descriptor; number_canceled() is the number of operations cancelled.

*Model and proof:* Batch builder, ring per thread, kernel as environment; invariants by induction on histories, list lemmas for the builder. (`IoUring/Cancel.v`, `IoUring/Holds.v`)

*Scope:* False of the code: cancel_all cancels one; cancel_any cancels everything; number_canceled() is 0 after a successful cancellation (refuted for all pending sets). Also proved: right with at most one matching operation pending, never touches others, the batch version counts right, 'nothing cancelled' is always reported (C79_…_partial).

*Theorems:* `C79_cancel_all_refuted`, `C79_cancel_any_ignores_arguments_refuted`, `C79_number_canceled_refuted`, `C79_cancel_all_single_partial`, `C79_cancel_all_never_others_partial`, `C79_number_of_batch_cancel_all_partial`, `C79_nothing_cancelled_is_reported_partial`

### C80 — wait_group_guard: assignment over a live guard (partial)

Move assignment over a guard that holds a registration undoes that registration; self-assignment is harmless.

*Model and proof:* Counter modulo 2^64, bag of waiters, two-step wait and done; refinement to an abstract automaton, invariants; guards: table of objects. (`WaitGroup/Holds.v`, `WaitGroup/Props.v`)

*Scope:* False of the code: the overwritten registration is leaked, wait() then never completes (refuted, both forms). Also proved for every program over guards: exactly the registrations assigned over or cleared while live are lost, nothing else (C80_only_overwritten_is_leaked_partial); assignment over an empty guard moves the registration.

*Theorems:* `C80_only_overwritten_is_leaked_partial`, `C80_assign_over_empty_partial`, `C80_guard_move_assign_leaks_refuted`, `C80_guard_self_assign_leaks_refuted`

### C81 — uring_exception and socket_exception carry their error (partial)

error_code() of a uring_exception or socket_exception is the error it was built from.

*Model and proof:* Pure functions on integers; case analysis over all 32-bit values / all classes. (`Errors/Props.v`)

*Scope:* False of the code for every error code: "no error" is reported and has_error_code() reads an indeterminate value (theorem).

*Theorems:* `C81_uring_exception_of_int_refuted`, `C81_uring_exception_loses_code_refuted`

### C82 — append_all on regular files, full devices and huge buffers (partial)

append_all writes the whole buffer also to a regular file opened without O_APPEND, ends when the device accepts nothing, and handles buffers of 4 GiB.

*Model and proof:* The loops as recursive functions on the list of kernel answers; induction on it. (`Transfer/Holds.v`, `Transfer/Props.v`)

*Scope:* False of the code in all three ways (refuted). Also proved: if the first write takes the whole buffer the plain file is right (C82_taken_at_once_partial).

*Theorems:* `C82_taken_at_once_partial`, `C82_plain_file_refuted`, `C82_zero_write_spins_refuted`, `C82_huge_buffer_refuted`

### C83 — fill calls: exceptions and cancellation (partial)

Also when the awaited operation throws the returned count is the number of bytes in the buffer and an error is reported; the throwing overloads report a cancellation.

*Model and proof:* The loops as recursive functions on the list of kernel answers; induction on it. (`Transfer/Holds.v`, `Transfer/Props.v`)

*Scope:* False of the code: count 0 with bytes in the buffer; a uring_exception is not reported at all; ECANCELED is swallowed (refuted). Also proved for all kernel behaviours: the overloads with an error code report a cancellation with the exact count and every foreign exception with an error (C83_reported_by_the_code_partial).

*Theorems:* `C83_reported_by_the_code_partial`, `C83_exception_loses_count_refuted`, `C83_uring_exception_silent_refuted`, `C83_cancel_swallowed_refuted`

### C84 — user event loops: loops added after stop() (partial)

A user loop added after stop() receives stop() too, or the addition is refused.

*Model and proof:* Tables of loops and threads, aggregate polling, shared static vector; invariants and fold lemmas. (`EventLoop/Holds.v`, `EventLoop/Late.v`, `EventLoop/Props.v`)

*Scope:* False of the code: accepted, never stopped (refuted). Also proved: a loop added before some stop is stopped (C84_added_before_a_stop_partial). C84_added_after_the_last_stop_refuted: for every history and every loop added in it after which stop() is not called again, the loop is driven and never receives stop(), however often stop() was called before.

*Theorems:* `C84_added_before_a_stop_partial`, `C84_added_after_the_last_stop_refuted`, `C84_added_after_stop_refuted`

### C85 — generator: the end is only reported after the local variables are destroyed (partial)

When next_value_async() returns nullopt because the generator body returned, the body's local variables have been destroyed.

*Model and proof:* Generator and consumer as two interleaved state machines; invariant relating yielded, received and pending values. unique/merge: functional programs on lists. (`Generator/Holds.v`, `Generator/Props.v`)

*Scope:* False of the code: the consumer is woken in return_void, before the locals are destroyed (refuted). Also proved: after the end is seen only the destruction of the locals is left (C85_only_destruction_is_left_partial).

*Theorems:* `C85_only_destruction_is_left_partial`, `C85_end_seen_before_locals_destroyed_refuted`

### C86 — generator: assigning to a generator destroys the one it held (partial)

Move assignment over a generator that holds a suspended body destroys that body.

*Model and proof:* Generator and consumer as two interleaved state machines; invariant relating yielded, received and pending values. unique/merge: functional programs on lists. (`Generator/Holds.v`, `Generator/Leak.v`, `Generator/Props.v`)

*Scope:* False of the code: the frame leaks (refuted). Also proved: assignment over an empty generator leaks nothing and keeps ownership unique (C86_over_an_empty_generator_partial). C86_every_assignment_over_a_body_leaks_refuted: for every history, an assignment from another generator object over one that still has a body leaves that body alive and unreachable for ever, whatever is destroyed afterwards.

*Theorems:* `C86_over_an_empty_generator_partial`, `C86_every_assignment_over_a_body_leaks_refuted`, `C86_move_assign_leaks_refuted`

### C87 — timeouts: milliseconds::max() means none, long timeouts do not overflow (partial)

milliseconds::max() means no deadline in every function, and long timeouts are clamped.

*Model and proof:* Accept loops and until_done as a transition system; parsing and deadline arithmetic as functions. (`Tcp/Deadline.v`, `Tcp/Deplete.v`)

*Scope:* True through op_batch::timeout(duration) (theorem); elsewhere signed overflow for every clock value (refuted).

*Theorems:* `C87_max_means_none_partial`, `C87_max_overflows_refuted`, `C87_long_timeouts_overflow_refuted`, `C87_last_moment_means_none_partial`, `C87_deplete_max_overflows_refuted`, `C87_deplete_clock_end_refuted`

### C88 — protobuf framing: failures are reported (partial)

The send call reports success only if the whole frame was handed to the kernel; a receive that times out reports failure.

*Model and proof:* Framing as functions over kernel answers, on top of the fill model. (`Protobuf/Framing.v`)

*Scope:* False of the code: success after errors, short prefix writes and 11 timeouts; a prefix timeout is an empty message (refuted); sender proved for smooth kernels (partial).

*Theorems:* `C88_send_success_means_sent_partial`, `C88_send_prefix_waits`, `C88_send_sixth_attempt_refuted`, `C88_send_success_refuted`, `C88_send_gives_up_silently_refuted`, `C88_long_message_refuted`, `C88_timeout_is_an_empty_message_refuted`

### C89 — tcp server: until_done waits for the accept loops (partial)

until_done() completes only when the server was told to stop and all its accept loops have finished.

*Model and proof:* Accept loops and until_done as a transition system; parsing and deadline arithmetic as functions. (`Tcp/ServerProps.v`)

*Scope:* False of the code if called before the accept loops have begun (refuted for every number of workers); holds when called after (partial).

*Theorems:* `C89_until_done_waits_refuted`, `C89_is_stop_before_loops_refuted`, `C89_until_done_waits_partial`

### C90 — a descriptor in a result object has an owner (partial)

The descriptor in a result object is closed exactly once also if the program takes it twice or never.

*Model and proof:* Pure functions on integers; case analysis over all 32-bit values / all classes. (`Errors/Holds.v`, `Errors/Props.v`)

*Scope:* False of the code: double close / leak (refuted). Also proved: closed exactly as often as taken, so exactly once iff taken exactly once (C90_closed_as_often_as_taken_partial).

*Theorems:* `C90_closed_as_often_as_taken_partial`, `C90_double_close_refuted`

### C91 — lock objects: owns_lock() tells the truth (partial)

owns_lock() / operator bool of a handle is true exactly if the handle owns the lock.

*Model and proof:* Table of handle objects plus the log of acquire/release calls; invariant: outstanding acquisitions = owning handles. (`LockBase/Props.v`)

*Scope:* Holds for every handle made by acquire and moves; a default-constructed handle claims ownership (refuted).

*Theorems:* `C91_owns_lock_truthful_partial`, `C91_owns_lock_default_refuted`

### C92 — wait_group: done(0) has no effect (partial)

done(0) does not resume waiters unless the counter is zero.

*Model and proof:* Counter modulo 2^64, bag of waiters, two-step wait and done; refinement to an abstract automaton, invariants; guards: table of objects. (`WaitGroup/Holds.v`, `WaitGroup/Props.v`, `WaitGroup/Stranded.v`)

*Scope:* False of the code (refuted): done(0) resumes all waiters while the counter is positive. Also proved for every execution: done(0) never changes the counter, and at any counter other than 1 it changes nothing at all (C92_…_partial). C92_done_zero_wakes_everybody_refuted: in every history that reaches counter 1, done(0) resumes any waiter in the queue, with the counter still 1.

*Theorems:* `C92_done_zero_otherwise_harmless_partial`, `C92_done_zero_keeps_counter_partial`, `C92_done_zero_wakes_refuted`, `C92_done_zero_wakes_everybody_refuted`

### C93 — future: several futures of one promise (partial)

Each future obtained from one promise is resumed with the result.

*Model and proof:* Shared state with frame slot, waiting slot and condition variable; invariants over all histories, answers characterised as functions of the log. (`Future/Holds.v`, `Future/Props.v`)

*Scope:* False of the code (refuted). Also proved for any number of futures: at most one delivery, and the first future asking after fulfilment gets the exact result (C93_…_partial).

*Theorems:* `C93_at_most_one_gets_it_partial`, `C93_first_asker_gets_it_partial`, `C93_two_futures_refuted`

### C94 — work-stealing queue: use by threads that are not workers (partial)

Enqueueing from a thread that is not registered is safe also before any worker registered.

*Model and proof:* Copy-on-write map of queues, stealing scan in steps; permutation invariant between log and contents. (`WSQueue/Holds.v`, `WSQueue/Props.v`)

*Scope:* False of the code: enqueueing before any worker registered, and dequeueing by an unregistered thread, is undefined behaviour in every state (refuted). Also proved: undefined behaviour happens exactly in the executions with such a misuse, and any thread may enqueue once a consumer registered (C94_…_partial).

*Theorems:* `C94_exactly_misuse_partial`, `C94_any_thread_may_enqueue_partial`, `C94_unregistered_use_refuted`

### C95 — dir_mutex: destroying an object does not break exclusion (partial)

Destroying one dir_mutex object leaves the lock of a coroutine holding another object on the same directory alone.

*Model and proof:* Lock file, objects, pollers, hubs; one step per openat/unlinkat/queue operation; invariant counting the owner of the file. (`DirMutex/Holds.v`, `DirMutex/Props.v`)

*Scope:* False of the code: the destructor removes the lock file whoever holds it (refuted, also in general form). Also proved: exclusion holds in every schedule that destroys objects only at rest (C95_destroyed_at_rest_partial).

*Theorems:* `C95_destroyed_at_rest_partial`, `C95_dir_mutex_destructor_breaks_exclusion_refuted`, `C95_dir_mutex_destructor_always_breaks_exclusion_refuted`

### C96 — co_await of a task delivers its result exactly once (proved)

co_await on an eager or lazy task completes exactly once, with exactly the value the awaited coroutine returned or the exception it threw, never before that coroutine's body has ended; once it has ended the awaiting coroutine completes after a bounded number of enabled steps, and it can never get stuck.

*Model and proof:* Caller and callee as interleaved state machines with threads; inductive invariant, bounded-progress argument. (`CoAwait/Props.v`)

*Scope:* all interleavings; progress is stated as enabledness plus a bound of four steps C96_every_schedule: every execution has at most 11 + 3k steps (k suspensions of the callee) and where nothing can happen any more the co_await has completed.

*Theorems:* `C96_result_exact`, `C96_completes_once`, `C96_no_lost_wakeup`, `C96_never_stuck`, `C96_every_schedule`

### C97 — co_await of a task completes only after the task's local variables are destroyed (partial)

When co_await task() completes, the local variables (locks, guards, buffers, references to the caller's data) of the awaited coroutine have been destroyed.

*Model and proof:* Caller and callee as interleaved state machines with threads; inductive invariant, bounded-progress argument. (`CoAwait/Props.v`)

*Scope:* False of the code for every value returned with co_return (the promise is fulfilled in return_value(), before the locals are destroyed); proved for bodies ending with an exception and for eager tasks that never suspend.

*Theorems:* `C97_locals_alive_refuted`, `C97_exception_partial`, `C97_never_suspending_partial`

### C98 — turn_into_scheduler() brings the caller onto a worker thread (partial)

After co_await this_task::turn_into_scheduler() the calling coroutine runs on a worker thread of the scheduler.

*Model and proof:* Caller and callee as interleaved state machines with threads; inductive invariant, bounded-progress argument. (`CoAwait/Props.v`)

*Scope:* False of the code from every non-worker thread in one schedule; proved when the caller began on a worker or await_ready() found the helper unfinished.

*Theorems:* `C98_turn_into_scheduler_refuted`, `C98_turn_into_scheduler_partial`

### C99 — Batches keep the arguments they copied, also when moved (proved)

A batch copies paths, socket addresses and deadlines given to its prep functions. In every history of creating, filling, moving, executing and destroying batches (moved-from batches only destroyed or moved again; move assignment only between batches using the same user-provided memory resource; user resources outlive their batches), there is no invalid memory access, executing a batch gives the kernel exactly the operations and argument values put into it, in order, and every copy is gone when all batches are.

*Model and proof:* Heap-like model (memory resources, copied objects, batch objects); inductive invariant on ownership and liveness; refinement to the history-defined list of operations asked for. (`BatchObj/Props.v`)

*Scope:* Invariant over all proper histories (resources alive, copies owned by exactly one batch).

*Theorems:* `C99_exec_submits_what_was_asked`, `C99_copies_live_as_long_as_the_batch`, `C99_exec_possible`, `C99_spent_batch`, `C99_fresh_batch`, `C99_no_leak`

### C100 — Batches can be move-assigned (partial)

After d = std::move(s), executing d performs the operations put into s, and destroying d and s is safe, whatever memory resources d and s were made with.

*Model and proof:* Heap-like model (memory resources, copied objects, batch objects); inductive invariant on ownership and liveness; refinement to the history-defined list of operations asked for. (`BatchObj/Props.v`)

*Scope:* Refuted: assigning to a default-constructed batch is undefined behaviour in every properly reached state (its memory resource dies before the containers using it are assigned); assigning from one with copied arguments to a batch on a user resource makes the later destruction undefined. Proved for two batches on the same user resource.

*Theorems:* `C100_assign_to_own_resource_refuted`, `C100_assign_from_own_resource_refuted`, `C100_same_user_resource_partial`

### C101 — Awaitables of single operations can be moved before they are awaited (partial)

The object returned by uring::read, connect and so on can be moved (stored in another object, passed on) and then awaited; the operation it was made for is performed.

*Model and proof:* Heap-like model (memory resources, copied objects, batch objects); inductive invariant on ownership and liveness; refinement to the history-defined list of operations asked for. (`BatchObj/Aw.v`)

*Scope:* Refuted: every awaitable made by move construction refers to the batch inside its source; awaiting it is undefined behaviour in every reachable state. Proved when awaited in place. In a history in which nothing is moved there is no undefined behaviour, and the operations submitted are those of the awaitables awaited, in that order (C101_never_moved_partial).

*Theorems:* `C101_moved_then_awaited_refuted`, `C101_every_move_breaks_refuted`, `C101_source_is_spent_refuted`, `C101_in_place_partial`, `C101_never_moved_partial`

### C102 — What is prepared is what the kernel is asked to do (proved)

For every batch with at least one entry, built from any number of prep_* calls (accept, send, recv, sendmsg, recvmsg, read, write, connect, cancel, openat, unlink, unlinkat, rename, renameat, renameat_noreplace, socket, sync_file_range, fsync, fdatasync, nop) and timeout() calls in any order, with arguments in the ranges of their types, names without NUL, buffers below 4 GiB and offsets other than 2^64-1: the kernel is asked for exactly those operations with exactly those arguments, in order, then for the last deadline given, each entry linked to the next. Each operation function (read, write, send, ...) asks for its operation and its deadline; socket() adds SOCK_NONBLOCK and nothing else.

*Model and proof:* liburing's prep functions and the kernel's reading of an entry as functions on integers; invariant over the list of calls; chain semantics with arbitrary durations for the timeout. (`Prep/Kernel.v`, `Prep/Props.v`)

*Scope:* For all batches in range: submitted requests and link flags equal the specification's; executing an empty batch is undefined (C102_empty_batch_must_not_be_executed). liburing's prep functions and the kernel's reading of the entries are part of the model.

*Theorems:* `C102_kernel_takes_every_entry`, `C102_socket_flags_must_be_zero`, `C102_cancel_entries`, `C102_batch_asks_for_what_was_prepared`, `C102_empty_batch_must_not_be_executed`, `C102_operation_functions`, `C102_socket_is_nonblocking`

### C103 — Buffers of any size are read and written with their length (partial)

read, write, send and recv ask the kernel for the whole buffer given, whatever its size, at the offset given.

*Model and proof:* liburing's prep functions and the kernel's reading of an entry as functions on integers; invariant over the list of calls; chain semantics with arbitrary durations for the timeout. (`Prep/Props.v`)

*Scope:* Refuted: from 4 GiB on the kernel is asked for the length modulo 2^32 (0 bytes for exactly 4 GiB), for read/write by an explicit cast, for send/recv by liburing's 32-bit field; offset 2^64-1 means the file position. Proved below 4 GiB.

*Theorems:* `C103_long_buffers_refuted`, `C103_four_gib_asks_for_nothing_refuted`, `C103_last_offset_refuted`, `C103_buffers_partial`

### C104 — The timeout of a batch bounds the whole batch (partial)

A batch with a deadline set by timeout() has completed at the deadline, whatever its operations do ('the timeout time point of the whole operation batch'), and an operation finished before the deadline is not disturbed.

*Model and proof:* liburing's prep functions and the kernel's reading of an entry as functions on integers; invariant over the list of calls; chain semantics with arbitrary durations for the timeout. (`Prep/Props.v`)

*Scope:* Refuted: the timeout is linked to, and armed with, the last operation only; a batch whose earlier operation blocks never completes, or completes late with success. Proved: batches with one operation (all operation functions) complete by the deadline; longer ones by the deadline or the sum of the earlier operations' durations; operations in time are not disturbed.

*Theorems:* `C104_never_completes_refuted`, `C104_late_success_refuted`, `C104_one_operation_partial`, `C104_last_operation_partial`, `C104_in_time_partial`

### C105 — Printing the runtime's status touches exactly the living mutexes (partial)

Whatever mutexes are created, first acquired and destroyed by any threads while the status of the runtime is printed, printing only accesses mutexes that are alive, and it covers every living mutex that has ever been acquired, each once.

*Model and proof:* Transition systems for the mutex monitor with its printing threads (ownership of the monitor's lock as state), for the life of the global scheduler, and for destruction of a pool of any number of workers and loops; inductive invariants, a decreasing measure for termination. (`Runtime/Props1.v`)

*Scope:* Proved for every interleaving in which runtime_init() is not called again while mutexes are registered: printing touches living mutexes only, and all those ever acquired. Refuted for a second runtime_init(): a mutex then deregisters from the new runtime only.

*Theorems:* `C105_status_touches_only_living_mutexes`, `C105_status_is_complete`, `C105_second_init_refuted`

### C106 — A mutex can be used and destroyed at any time (partial)

Acquiring or destroying a koios::mutex never brings the process down, whatever state the runtime is in: not yet initialised, running, stopped, or being torn down at exit.

*Model and proof:* Transition systems for the mutex monitor with its printing threads (ownership of the monitor's lock as state), for the life of the global scheduler, and for destruction of a pool of any number of workers and loops; inductive invariants, a decreasing measure for termination. (`Runtime/Props1.v`)

*Scope:* Refuted: without a runtime, after stop() and during static destruction ~mutex() and the first acquisition terminate the process (a throw out of noexcept code). Proved: while the runtime is up (which only stop() and static destruction end) no operation on a mutex terminates and none is blocked while nothing is being printed; a mutex acquired once can be acquired in every state.

*Theorems:* `C106_no_runtime_refuted`, `C106_after_stop_refuted`, `C106_while_up_partial`, `C106_up_until_stop_partial`, `C106_acquired_before_partial`, `C106_not_blocked_partial`

### C107 — A working scheduler can be destroyed (partial)

The destructor of a scheduler object may be called while its workers run: no worker touches anything already destroyed, and the destructor returns unless the object was made with manually_stop and never stopped.

*Model and proof:* Transition systems for the mutex monitor with its printing threads (ownership of the monitor's lock as state), for the life of the global scheduler, and for destruction of a pool of any number of workers and loops; inductive invariants, a decreasing measure for termination. (`Runtime/Teardown.v`)

*Scope:* Refuted for event loops with at least one component and one worker: the components are destroyed before the workers are stopped. Proved: with stop() or quick_stop() returned before, for any number of loops; a plain pool at any time, whose destructor returns under every schedule; a manually_stop pool that was not stopped never returns.

*Theorems:* `C107_running_event_loop_refuted`, `C107_stopped_first_partial`, `C107_plain_pool_partial`, `C107_manual_pool_blocks`, `C107_destructor_returns_partial`, `C107_every_schedule_partial`, `C107_polls_destroyed_loop_refuted`, `C107_stop_ends_workers`

### C108 — SIGINT stops the runtime cleanly (partial)

The first SIGINT after runtime_init(), on whatever thread and whenever it is delivered, makes the runtime stop: all workers end, the handler returns and the process goes on; a later runtime_exit() or stop() returns too. Only a second SIGINT terminates the process.

*Model and proof:* Transition systems for the mutex monitor with its printing threads (ownership of the monitor's lock as state), for the life of the global scheduler, and for destruction of a pool of any number of workers and loops; inductive invariants, a decreasing measure for termination. (`Runtime/SignalGood.v`, `Runtime/SignalProps.v`)

*Scope:* Refuted, each for all continuations: delivered to a worker (self-join: termination or the handler never returns), to a thread writing a log line, to a thread waiting in stop(); during runtime_init() (null or half-built scheduler); in a second runtime (the flag is never reset). Proved: one SIGINT to any other thread while the runtime is up does no harm, and under every schedule the handler and every stop() return within a bounded number of steps with all workers ended; a second SIGINT terminates.

*Theorems:* `C108_no_harm_partial`, `C108_stops_partial`, `C108_second_sigint_terminates`, `C108_on_a_worker_refuted`, `C108_while_logging_refuted`, `C108_while_stopping_refuted`, `C108_during_init_refuted`, `C108_second_runtime_refuted`

### C109 — A task enqueued for a worker is executed by that worker (partial)

enqueue(ca, f) executes f on the thread described by ca.

*Model and proof:* Copy-on-write map of queues, stealing scan in steps; permutation invariant between log and contents. (`WSQueue/Affinity.v`)

*Scope:* Refuted: any worker that finds its own queue empty may take the task. Proved: until taken, the task waits in the queue of the worker it is for; a worker takes a task meant for another one only if its own queue was empty when it began to look.

*Theorems:* `C109_other_thread_refuted`, `C109_waits_at_its_worker_partial`, `C109_steals_only_without_own_partial`

### C110 — A task does not wait longer than half a second for an idle worker (proved)

A task handed to the scheduler is started at the latest 500 ms later unless all workers are executing other tasks all that time, whatever wake-ups get lost, whatever the loops' sleep times are and however enqueueing and going to sleep interleave.

*Model and proof:* Worker loop with one step per atomic access, non-atomic emptiness scan, stop protocol; inductive invariants. (`ThreadPool/Idle.v`)

*Scope:* Timed model in which everything but sleeping and executing tasks takes no time. At once, instead of within 500 ms, is refuted (lost notification).

*Theorems:* `C110_no_worker_sleeps_over_a_task`, `C110_who_looks_finds`, `C110_enqueue_wakes_a_sleeper`, `C110_a_woken_worker_looks`, `C110_immediately_refuted`

### C111 — quick_stop() reaches idle workers within half a second (proved)

500 ms after quick_stop() or runtime_exit() no worker is asleep: each has ended or is still executing the task it had, after which it takes no further one.

*Model and proof:* Worker loop with one step per atomic access, non-atomic emptiness scan, stop protocol; inductive invariants. (`ThreadPool/Idle.v`)

*Scope:* Same timed model; at once, instead of within 500 ms, is refuted (lost notification).

*Theorems:* `C111_no_worker_sleeps_through_quick_stop`, `C111_no_further_task`, `C111_at_once_refuted`

### C112 — start() returns when every worker is ready (proved)

start() (and runtime_init(n)) returns under every schedule of the starting threads, and when it has returned each of the n workers is registered with the task queue and has exactly one entry in consumer_attrs(); no worker is listed before it is registered with the queue.

*Model and proof:* Worker loop with one step per atomic access, non-atomic emptiness scan, stop protocol; inductive invariants. (`ThreadPool/StartUp.v`)

*Scope:* StartUp.v: n workers, start(), latch, listing; termination of start() by a decreasing measure on every maximal run.

*Theorems:* `C112_all_listed_once`, `C112_listed_after_preparation`, `C112_start_returns`

### C113 — The number of workers in a consumer attribute (partial)

consumer_attr::number_of_threads is the number of workers of the pool.

*Model and proof:* Worker loop with one step per atomic access, non-atomic emptiness scan, stop protocol; inductive invariants. (`ThreadPool/StartUp.v`)

*Scope:* Refuted for every n>0: the worker reads the size of the vector while start() is still filling it, so the first worker may see 0 (and that read is a data race). Proved: the value of worker w is between w and n, and never changes.

*Theorems:* `C113_number_of_threads_refuted`, `C113_bounds_partial`, `C113_constant_partial`

### C114 — The pointers consumer_attrs() returns stay usable (partial)

As long as the scheduler exists each pointer in consumer_attrs() points to a live attribute object.

*Model and proof:* Worker loop with one step per atomic access, non-atomic emptiness scan, stop protocol; inductive invariants. (`ThreadPool/StartUp.v`)

*Scope:* Refuted: the attribute object is a local variable of the worker, and its entry stays listed after the worker has ended. Proved: true for all entries as long as no stop has been requested.

*Theorems:* `C114_after_stop_refuted`, `C114_before_stop_partial`

### C115 — A sleeping coroutine is handed back at its deadline if a worker is idle (partial)

If some worker is idle, a coroutine that awaited sleep_for/sleep_until is handed back to the scheduler at its deadline, and is executed at the latest half a second later.

*Model and proof:* Worker loop with one step per atomic access, non-atomic emptiness scan, stop protocol; inductive invariants. (`ThreadPool/Sleepers.v`)

*Scope:* Refuted: timers are per worker; while the worker on which the coroutine went to sleep executes another task nobody looks at its timer, for any length of time and with the other worker idle. Proved: never handed over before the deadline; overdue only while that worker has been executing one task since before the deadline; then it polls before anything else; then at most half a second until no worker is idle.

*Theorems:* `C115_busy_worker_refuted`, `C115_overdue_only_while_busy_partial`, `C115_poll_before_anything_partial`, `C115_fired_in_time_partial`, `C115_then_half_a_second_partial`

### C116 — sleep_for lasts at least its duration in real time (partial)

A coroutine that awaits sleep_for(d) is not resumed before d of real time has passed, also when the wall clock is adjusted.

*Model and proof:* Per-thread heaps with arbitrary standard-conforming push/pop, poll split at its lock release; log refinement to bags of sleepers. (`Timer/Clock.v`)

*Scope:* Refuted: high_resolution_clock is the wall clock; set forward by d it ends a sleep of d at once. Proved for every clock that never gains on real time (it may stop, slow down or be set back).

*Theorems:* `C116_clock_set_forward_refuted`, `C116_never_early_partial`

### C117 — this_task::get_id() identifies the task (partial)

co_await this_task::get_id() returns a non-null id that is the same every time the task asks, and that no other task of the program is ever given.

*Model and proof:* Batch builder, ring per thread, kernel as environment; invariants by induction on histories, list lemmas for the builder. (`IoUring/TaskId.v`)

*Scope:* Proved: stable, non-null, unique among tasks none of which has ended, in every history. Refuted for all ids: the id is the frame's address and is given to a later task once the first has ended.

*Theorems:* `C117_id_identifies_living_task_partial`, `C117_id_reused_refuted`

### C118 — cancel_first(id) reaches that task's pending operation (partial)

co_await uring::cancel_first(id) with an id obtained by this_task::get_id() cancels the pending operation of exactly the task with that id, and reports failure only when that task has no pending operation.

*Model and proof:* Batch builder, ring per thread, kernel as environment; invariants by induction on histories, list lemmas for the builder. (`IoUring/TaskId.v`)

*Scope:* Proved: with the canceller on the worker whose ring holds the operation and the target alive, exactly the target's operation is cancelled and nothing else changes; -ENOENT iff nobody with that id waits on the canceller's ring. Refuted: an operation pending on any other worker's ring is never found; a stale id cancels an unrelated task's operation. Not modelled: several operations of one task at once (multi-operation batches).

*Theorems:* `C118_cancel_same_worker_partial`, `C118_cancel_hits_only_the_id_partial`, `C118_cancel_other_worker_refuted`, `C118_stale_id_refuted`

### C119 — Programs whose tasks wait by co_await complete (proved)

On a pool with at least one worker, a program in which main() starts tasks and calls get()/result() on them, and tasks start further eager or lazy tasks, yield, sleep, do I/O and co_await tasks they have started, runs to completion under every schedule: no deadlock, and every get() of main() returns. (Eager tasks started by main() do not sleep before they have moved to a worker: C68.)

*Model and proof:* Transition system of tasks given by arbitrary finite programs (start eagerly or lazily, yield, co_await, blocking get) on n workers and the main thread, each with a stack of coroutines; inductive invariant, decreasing measure for termination, progress by the latest task that has not ended, counting argument for the blocking tasks. (`Blocking/Code.v`, `Blocking/Props.v`)

*Scope:* Every schedule has at most 3*size+1 steps, cannot get stuck before everything has ended, and can be completed from every point. Model: any free worker may take any queued task; a task that sleeps or does I/O is resumed by the worker it ran on, between two tasks, after a finite time; no exceptions, no spurious wake-ups (C69), pool not stopped. C119_each_task_runs_its_code: every task does its own code, in order, nothing twice and nothing left out.

*Theorems:* `C119_each_task_runs_its_code`, `C119_cooperative_programs_complete`

### C120 — result() can be called from tasks (partial)

Tasks may also wait for the tasks they start by a blocking get() or result(); the program still runs to completion under every schedule.

*Model and proof:* Transition system of tasks given by arbitrary finite programs (start eagerly or lazily, yield, co_await, blocking get) on n workers and the main thread, each with a stack of coroutines; inductive invariant, decreasing measure for termination, progress by the latest task that has not ended, counting argument for the blocking tasks. (`Blocking/Props.v`)

*Scope:* Refuted for every number n of workers: n tasks that call result() on a lazy task can block all workers for good. Proved: complete under every schedule if fewer than n tasks call get() and none sleeps or does I/O; and for every program the only ways to get stuck are that all n workers are inside get(), or that one is whose event loop holds a task (C156).

*Theorems:* `C120_blocking_programs_complete_partial`, `C120_stuck_only_if_all_blocked_partial`, `C120_all_workers_block_refuted`

### C121 — A coroutine can sleep for any duration and until any time point (partial)

sleep_for(d) suspends until d after the call for every positive d of every standard duration type, duration::max() meaning practically for ever; sleep_until(tp) suspends until tp, time_point::max() meaning for ever, and continues at once if tp has passed.

*Model and proof:* Per-thread heaps with arbitrary standard-conforming push/pop, poll split at its lock release; log refinement to bags of sleepers. (`Timer/Long.v`)

*Scope:* Proved: exact for every unit and count if and only if the deadline is representable (before 2262), sleep_until late by what passes between the two clock readings. Refuted: duration::max() overflows for every unit at any time after 1970, time_point::max() whenever time passes between the two readings, time_point::min() always.

*Theorems:* `C121_exact_partial`, `C121_until_partial`, `C121_sleep_for_max_refuted`, `C121_sleep_until_max_refuted`, `C121_sleep_until_min_refuted`

### C122 — The callable given to make_lazy outlives the task made from it (partial)

make_lazy(f, args...) (and for_each, for_each_dispatch_evenly through it) keeps the callable f, with its captures, alive for as long as the coroutine it starts uses it, whenever the returned task is scheduled.

*Model and proof:* Await loops as a transition system over launches and completions; dispatch counter arithmetic. (`Functional/Lifetime.v`)

*Scope:* Proved for callables returning eager tasks: every use by a statement of the body finds the callable alive. Refuted for lazy ones: every use finds it gone, in every history (the by-value parameter dies when make_lazy returns). Refuted for uses in destructors of the body's locals, also for eager ones.

*Theorems:* `C122_eager_partial`, `C122_destructor_refuted`, `C122_lazy_refuted`

### C123 — to() of a pipeline collects exactly what the pipeline means (proved)

gen.to<Container>() and to(iterator), on any composition of unique() and merge() over generators that end, terminates and returns exactly the pipeline's values in order; in particular unique() over merge() of two sorted generators is their set union: strictly sorted, and with exactly the values of both, up to equivalence.

*Model and proof:* Generator and consumer as two interleaved state machines; invariant relating yielded, received and pending values. unique/merge: functional programs on lists. (`Generator/Pipeline.v`)

*Scope:* unique_impl and merge are modelled as the coroutines they are, each call of next_value_async answered by the inner generator (C19), sources finite here. Container push_back and iterator assignment are appending.

*Theorems:* `C123_to_collects`, `C123_set_union`

### C124 — merge() works on demand, also over infinite generators (proved)

After n calls of next_value_async() on merge(a, b), at most n + 1 calls have been made on a and b together; the values delivered are those of std::merge on the values read so far, except for at most one value held back; and every call is answered if the inputs answer theirs, infinite inputs included.

*Model and proof:* Generator and consumer as two interleaved state machines; invariant relating yielded, received and pending values. unique/merge: functional programs on lists. (`Generator/Demand.v`)

*Scope:* For arbitrary input generators of the model (sources given by any function, unique and merge of any depth). On ties the second argument comes first (C72).

*Theorems:* `C124_merge_on_demand`, `C124_merge_answers`

### C125 — unique() delivers a value once it is known to be new (partial)

unique() delivers each value that differs from its predecessor when its input has yielded it, without waiting for what follows.

*Model and proof:* Generator and consumer as two interleaved state machines; invariant relating yielded, received and pending values. unique/merge: functional programs on lists. (`Generator/Demand.v`)

*Scope:* Refuted: a value is delivered only when a different one or the end arrives, so the last distinct value of a generator that goes on for ever, even the first value of a constant one, is never delivered. Proved: at any moment exactly what unique means on the values read has been delivered but for one held value, none after the end.

*Theorems:* `C125_unique_on_demand_partial`, `C125_value_withheld_refuted`, `C125_first_value_withheld_refuted`

### C126 — connect_get_sock and bind_get_sock_tcp give a socket as asked for, or nothing (partial)

connect_get_sock returns a new socket of the address's family, with the given flags, connected to the address and port; bind_get_sock_tcp returns a new socket with the options and flags asked for, bound to the address and port. If any step fails they throw the error of that step and no descriptor stays open.

*Model and proof:* Accept loops and until_done as a transition system; parsing and deadline arithmetic as functions. (`Tcp/Sock.v`)

*Scope:* Proved for connect_get_sock; for bind_get_sock_tcp except for the flags, which are ignored (refuted: no flags argument changes anything). Assumed: unique_posix_fd closes when destroyed, errret_thrower throws on failure (both in toolpex); the frame is not destroyed while an operation is in flight (C90).

*Theorems:* `C126_connect`, `C126_bind_partial`, `C126_error`, `C126_error_is_kernels_refuted`, `C126_flags_ignored_refuted`

### C127 — async_awaiting_hub wakes every waiter exactly once (partial)

Every task given to add_awaiting is handed to the scheduler at most once per add; may_wake_next hands over one task and returns true, or false if none waits; may_wake_all returns after all tasks that waited have been woken, and its result tells whether it woke one; it always returns.

*Model and proof:* List queue; big-step scheduler over spawn trees; object table for the type-erased wrapper. (`Queues/Hub.v`)

*Scope:* All proved except that may_wake_all always returns: it goes round once per task waiting at its begin or added meanwhile, so it returns when nobody adds any more; refuted in general: a task that comes back after being woken keeps it going for ever. The lock-free queue is modelled as an atomic bag.

*Theorems:* `C127_exactly_once`, `C127_wake_all_wakes_all`, `C127_answers`, `C127_wake_all_bounded`, `C127_wake_all_can_return`, `C127_wake_all_endless_refuted`

### C128 — Data under a mutex behaves as if critical sections ran one after the other (proved)

If coroutines access shared data only between obtaining a koios::mutex and unlock(), then under every interleaving, including suspension and migration in the middle of a section, the data is what executing the sections one after the other in the order of obtaining the lock gives; in particular no counter increment is lost.

*Model and proof:* Atomic flag, bag of waiters and one program counter per coroutine; inductive invariant over all interleavings (owner token conserved), refinement of the log to the abstract lock. (`Mutex/Serial.v`)

*Scope:* Over the atomic-step model of the mutex (C01), sequentially consistent memory; the discipline that data is touched only while the lock is held is the client's and is a guard of the action steps.

*Theorems:* `C128_sections_serial`, `C128_no_lost_update`

### C129 — Data read under a shared_mutex does not change while the lock is held (partial)

While a coroutine holds a koios::shared_mutex, shared or unique, what it reads changes only by its own writes, provided data is read only under the lock and written only under the unique lock.

*Model and proof:* State machine of the critical sections with ghost holders; invariants under the stated history conditions, witnesses for the refutations. (`SharedMutex/Isolation.v`)

*Scope:* Proved for every history, waiting readers included, that does not hit one of the two defects of C04. Refuted in general: a reader that had to wait sees a value change under its lock.

*Theorems:* `C129_reads_are_stable_partial`, `C129_torn_read_refuted`

### C130 — On one worker the mutex loses no wake-up and is first come, first served (proved)

If all coroutines using a koios::mutex run on one worker thread, then whenever a coroutine waits for the lock some other coroutine holds it, has been handed it, or is in the middle of releasing it (so no coroutine is left waiting once everything has come to rest), and the lock is obtained in exactly the order in which it was requested. With two worker threads neither holds.

*Model and proof:* Atomic flag, bag of waiters and one program counter per coroutine; inductive invariant over all interleavings (owner token conserved), refinement of the log to the abstract lock. (`Mutex/Single.v`)

*Scope:* Schedules of one thread; the waiting queue of moodycamel is FIFO for a single producer and does not fail spuriously on the thread that fills it (assumed). With two threads: overtaking (C130_two_threads_overtaking) and lost wake-up (C02).

*Theorems:* `C130_no_lost_wakeup`, `C130_quiescent_means_idle`, `C130_first_come_first_served`, `C130_two_threads_overtaking`

### C131 — What is written under a mutex is visible to the next owner (proved)

Under the C++ memory model, with the memory orders the code uses, any two accesses to data that is accessed only while holding a koios::mutex are ordered by happens-before, whatever threads the coroutines run on: there is no data race, and a critical section sees everything written in the earlier ones. Each of the acquire of the test-and-set and the release of both stores is needed for that.

*Model and proof:* happens-before as an inductive relation on the positions of a record of memory operations (program order, synchronizes-with from the memory orders in the code, transitivity); an invariant says which operations are ordered before the current lock holder / the zero of the counter (`Weak/Mutex.v`)

*Scope:* Happens-before over the positions of a record of the memory operations (one atomic variable; queues and scheduler synchronise what is passed through them: trusted). C131_each_is_needed: weakening any of the three orders gives an execution with a race.

*Theorems:* `C131_sections_happen_before_each_other`, `C131_what_is_needed`, `C131_ends_happen_before`, `C131_each_is_needed`

### C132 — After wait() everything done before done() is visible (proved)

Under the C++ memory model, with the memory orders the code uses: when a co_await of wait_group::wait() completes, the counter had come down to zero after all add() calls that happened before the wait began, and every done() call that brought it there happens before the completion. In particular, if all add() calls happen before the wait, everything done before any done() is visible to the waiter. An add() that is not ordered before the wait may be missed.

*Model and proof:* happens-before as an inductive relation on the positions of a record of memory operations (program order, synchronizes-with from the memory orders in the code, transitivity); an invariant says which operations are ordered before the current lock holder / the zero of the counter (`Weak/WaitGroup.v`)

*Scope:* Loads may return stale values within coherence (a hypothesis that states what C++ guarantees); C132_each_is_needed: weakening any of the three orders gives an unordered execution; C132_unordered_add: the ordering of add() before wait() is needed. The restriction on add() during a draining done() is needed because of C45.

*Theorems:* `C132_join_visibility`, `C132_join`, `C132_each_is_needed`, `C132_unordered_add`

### C133 — A wait_group can be destroyed once wait() has completed (partial)

When every add() has been matched by a call of done() and nobody waits any more, a coroutine whose wait() has completed may destroy the wait_group (for example as its local variable): no call on it uses it afterwards.

*Model and proof:* Counter modulo 2^64, bag of waiters, two-step wait and done; refinement to an abstract automaton, invariants; guards: table of objects. (`WaitGroup/Destroy.v`)

*Scope:* Refuted in both ways in which wait() completes: done() still reads the waiting queue after the decrement that lets the waiter go on. Proved: safe if all done() calls have returned, and always on one worker.

*Theorems:* `C133_refuted`, `C133_after_return_partial`, `C133_one_worker_partial`

### C134 — A mutex can be destroyed by its last user (partial)

As for std::mutex: when nobody owns a koios::mutex or waits for it and nobody will use it again, the coroutine that unlocked it last may destroy it, even if an earlier unlock() has not returned yet: no call on it uses it afterwards.

*Model and proof:* Atomic flag, bag of waiters and one program counter per coroutine; inductive invariant over all interleavings (owner token conserved), refinement of the log to the abstract lock. (`Mutex/Destroy.v`)

*Scope:* Refuted: unlock() still uses the flag and the queue after the clear that lets the next owner in. Proved: safe if all unlock() calls have returned, and always on one worker.

*Theorems:* `C134_refuted`, `C134_after_return_partial`, `C134_one_worker_partial`

### C135 — On one worker, tasks that lock mutexes in a fixed order complete (proved)

With one worker, any number of tasks that lock and unlock any number of koios::mutexes, suspend in between, unlock what they locked and take the mutexes in increasing order all finish: whatever task the worker picks next, the number of steps is bounded by the length of the programs, and a state in which the worker has nothing more to do is one in which every task has finished. Without the order two tasks can stop for ever, each waiting for the other's mutex.

*Model and proof:* Atomic flag, bag of waiters and one program counter per coroutine; inductive invariant over all interleavings (owner token conserved), refinement of the log to the abstract lock. (`Mutex/Programs.v`)

*Scope:* Mutex/Programs.v: one step per operation, proved to be a sequence of steps of Mutex/Model.v on one thread (C135_refines_the_model). The scheduler's queue is left open (any ready task may be picked); with two workers the lost wake-up of C02 applies.

*Theorems:* `C135_completes`, `C135_refines_the_model`, `C135_order_is_needed`

### C136 — On one worker every waiter of a wait_group is released (proved)

With one worker and every done() being done(1) of something added, a coroutine waits at a koios::wait_group only while the counter is positive or the done() that reached zero is just releasing the waiters; once the counter is zero and all calls of done() have returned nobody waits. done(2) at a counter of two releases nobody, even on one worker.

*Model and proof:* Counter modulo 2^64, bag of waiters, two-step wait and done; refinement to an abstract automaton, invariants; guards: table of objects. (`WaitGroup/Single.v`)

*Scope:* WaitGroup/Single.v, over WaitGroup/Model.v restricted to one thread (the next step belongs to the coroutine that is inside an operation). With several workers C06 and C07 say what may be lost.

*Theorems:* `C136_no_lost_wakeup`, `C136_all_released`, `C136_waits_only_while_positive`, `C136_done_by_two`

### C137 — dir_mutex: cancelling ends the polling (partial)

After cancel_all_polling() of a koios::dir_mutex every poller of that object ends after at most two more steps of its own, whatever the others do, is never blocked, and the request is not taken back. The coroutines that wait for the lock through that object are not told: once its polling has ended and nobody else uses the object they wait for ever, although the lock file is gone.

*Model and proof:* Lock file, objects, pollers, hubs; one step per openat/unlinkat/queue operation; invariant counting the owner of the file. (`DirMutex/Cancel.v`)

*Scope:* Proved: polling ends (C137_polling_ends). Refuted: the waiters are not told (C137_cancel_strands_waiters_refuted, nobody destroys an object). That cancel_all_polling() blocks its own thread in item.get() until the pollers ended is C157.

*Theorems:* `C137_polling_ends`, `C137_cancel_strands_waiters_refuted`

### C138 — An idle worker sleeps; a worker looks before it sleeps (proved)

Between two rounds of polling the event loops and looking for a task, a worker of the thread pool has begun a task or has gone to sleep; and it goes to sleep or begins a task only after such a round. So an idle worker does not spin, and a worker that just finished a task looks for another before it sleeps.

*Model and proof:* Worker loop with one step per atomic access, non-atomic emptiness scan, stop protocol; inductive invariants. (`ThreadPool/Turns.v`)

*Scope:* Counted over every history of the thread pool model (Turns.v).

*Theorems:* `C138_polls_then_works_or_sleeps`

### C139 — On one worker, programs that use mutexes, wait groups and task results in an order complete (proved)

With one worker, any number of tasks that lock and unlock koios::mutexes, add() to, done() and wait() for wait_groups, start other tasks and await their futures, all finish if there is an order on mutexes, groups and tasks such that a task waits only for what comes later than everything it has locked, every done() it owes and its own result, and every task ends with nothing locked and nothing owed (done() calls may be handed to the tasks it starts). Whatever task the worker picks next, the number of steps is bounded by the length of the programs, no operation is a misuse (no done() below zero, no second waiter on a future), and a state in which the worker has nothing more to do is one in which every started task has finished, no mutex is locked, every counter is zero and nobody waits. Without the order tasks can stop for ever: one that waits for a group while it holds the mutex that the tasks of the group need.

*Model and proof:* programs of any number of tasks over mutexes, wait groups and task results on one worker; an invariant with ghost ownership, a decreasing measure and a maximal-rank argument give completion; a simulation per mutex, group and future onto Mutex/, WaitGroup/ and Future/ models; scoped programs with exceptions are simulated by the linear programs they amount to (`Structured/Props.v`, `Structured/Refine.v`)

*Scope:* Structured/: one step per operation of a mutex, group or future; C139_refines_the_models proves that every such run is, for each mutex, group and future, a run of Mutex/Model.v, WaitGroup/Model.v (one thread; the total added to a group below 2^64) and Future/Model.v. The scheduler's queue is left open (any ready task may be picked). Tasks do not throw (C96 has exceptions); with two workers the lost wake-ups of C02, C06 and C07 apply.

*Theorems:* `C139_completes`, `C139_leaves_nothing`, `C139_no_misuse`, `C139_order_is_needed`, `C139_refines_the_models`

### C140 — A generator's body and its consumer never race (partial)

Between a call of next_value_async() and its completion only the body of the generator runs, at all other times only the consumer: any two accesses they make, to the yielded value (which is passed without a lock) or to any common data, are ordered by happens-before, on whatever worker threads they run and however often they move between them. So each sees everything the other did before the hand-over. The destruction of a suspended body by the generator's destructor is ordered too; the destruction of the body's local variables after its end is not (it races with the consumer, see C85).

*Model and proof:* happens-before as an inductive relation on the positions of a record of memory operations (program order, synchronizes-with from the memory orders in the code, transitivity); an invariant says which operations are ordered before the current lock holder / the zero of the counter (`Weak/Generator.v`)

*Scope:* Proved for all accesses of the bodies and for the destruction of a suspended body, without using the edges of the spin lock or of m_finalized. Refuted for the local variables of a body that has ended: their destruction races with the consumer. Trusted: enqueueing into the scheduler happens before the resumption.

*Theorems:* `C140_one_at_a_time`, `C140_locals_last`, `C140_locals_race_refuted`

### C141 — What a task did before its result was stored is visible to whoever obtains the result (proved)

Under the C++ memory model, everything a task did up to the storing of its result (or exception), and the storing itself, happens before the result is obtained, whether by co_await on the future (with or without suspending), get_nonblk() or a blocking get(), whatever threads run the task and the consumers: no data race on the result or on anything the task wrote before.

*Model and proof:* happens-before as an inductive relation on the positions of a record of memory operations (program order, synchronizes-with from the memory orders in the code, transitivity); an invariant says which operations are ordered before the current lock holder / the zero of the counter (`Weak/Future.v`)

*Scope:* Weak/Future.v over the step relation of Future/Model.v; trusted: std::mutex (unlock synchronizes with later lock); edges through the scheduler are not needed. What the task does after its result was stored (destruction of its locals after co_return, C97) is not ordered with the consumer: C141_locals_race_refuted.

*Theorems:* `C141_result_is_visible`, `C141_locals_race_refuted`

### C142 — user event loops: callbacks and the container (partial)

While a user loop is being prepared for a thread no callback of any user loop runs on another thread; the list of loops never changes under a thread that goes through it; and every call of the container returns, whatever the callbacks do: a callback may itself add a loop, query the container or stop it.

*Model and proof:* Tables of loops and threads, aggregate polling, shared static vector; invariants and fold lemmas. (`EventLoop/Callbacks.v`)

*Scope:* EventLoop/Callbacks.v. Exclusion of preparation and stability of the list proved for every behaviour of the callbacks. That calls return is proved for callbacks that call nothing of the container (C142_calls_return_partial: completion, bound on steps, no deadlock) and refuted otherwise: a callback that adds a loop, or a preparation that asks the container anything, blocks for good in every continuation, and with it every later add_loop() and preparation, or every later call (C142_blocked_for_good and the two _refuted theorems). Formally such a call is undefined behaviour of std::shared_mutex; the model takes the usual implementation, which blocks. m_attrs is keyed by the calling thread.

*Theorems:* `C142_preparation_alone`, `C142_list_is_stable`, `C142_blocked_for_good`, `C142_calls_return_partial`, `C142_add_from_callback_refuted`, `C142_ask_from_preparation_refuted`

### C143 — user event loops: no polling after quick_stop(), without a data race (partial)

Once quick_stop() has marked the container, no poll that looks at the mark afterwards calls a user loop; the mark is accessed without a data race.

*Model and proof:* Tables of loops and threads, aggregate polling, shared static vector; invariants and fold lemmas. (`EventLoop/Callbacks.v`)

*Scope:* First part proved with the accesses to the mark taken one at a time (C143_no_poll_after_quick_stop_partial). Second part refuted: m_cleanning is a plain bool written under a shared lock only; a reachable state has both accesses next (C143_flag_race_refuted).

*Theorems:* `C143_no_poll_after_quick_stop_partial`, `C143_flag_race_refuted`

### C144 — A coroutine that moves between threads never races with itself (partial)

Under the C++ memory model all accesses to the frame of a coroutine (its creation, its code before and after any suspension whatever it awaits and on whatever threads it is resumed, its destruction by itself or by somebody else) are ordered by happens-before; so is what its creator did before creating it, and what the one who woke it did before waking it, with what it does afterwards.

*Model and proof:* happens-before as an inductive relation on the positions of a record of memory operations (program order, synchronizes-with from the memory orders in the code, transitivity); an invariant says which operations are ordered before the current lock holder / the zero of the counter (`Weak/Self.v`)

*Scope:* Weak/Self.v. Ordering proved for every kind of hand-over (C144_never_races_with_itself, C144_sees_its_creator, C144_sees_its_waker); trusted: putting an item into a concurrent queue synchronizes with taking it out, unlock with later lock. Refuted for the one access await_suspend() makes after the hand-over, in acquire_shared() (C144_acquire_shared_refuted, cf. C47).

*Theorems:* `C144_never_races_with_itself`, `C144_sees_its_creator`, `C144_sees_its_waker`, `C144_acquire_shared_refuted`

### C145 — On one worker, programs of scopes with exceptions complete, and every exception arrives where it should (proved)

Any number of coroutines on one worker, each written with scopes: a mutex is locked for a block (unique_lock), started tasks report to wait_groups with a wait_group_guard, the future of a started task is awaited at the end of a block (co_await rethrows what the task threw), and any of them may throw, catch, suspend, wait for groups, and start tasks nobody awaits. If every wait is for something later in some order than what the task holds and owes, then: every run is finite with a bound computed from the programs; it stops only when exactly the tasks that were to be started have ended, each with the value or exception its own code (with the results of the tasks it awaits) gives; no mutex stays locked, no group above zero and no task suspended, whatever was thrown; and the results do not depend on how the tasks were interleaved.

*Model and proof:* programs of any number of tasks over mutexes, wait groups and task results on one worker; an invariant with ghost ownership, a decreasing measure and a maximal-rank argument give completion; a simulation per mutex, group and future onto Mutex/, WaitGroup/ and Future/ models; scoped programs with exceptions are simulated by the linear programs they amount to (`Structured/ScopedProps.v`)

*Scope:* Structured/Scoped.v is a machine with scopes and exceptions whose mutex/group/task operations are those of Structured/Model.v (refinement to the class models: Structured/Refine.v). C145_completes: bound and exact results, given by a scheduler-independent big-step semantics (ScopedSpec.v means). C145_leaves_nothing, C145_exceptions_arrive, C145_order_does_not_matter, C145_no_misuse; C145_case has three tasks that throw under locks and report to a group. Stated for one worker: with several workers a result is delivered before the task's locals are destroyed (C97).

*Theorems:* `C145_completes`, `C145_leaves_nothing`, `C145_exceptions_arrive`, `C145_order_does_not_matter`, `C145_no_misuse`

### C146 — co_await of a coroutine means what the call of an ordinary function means (proved)

Take any program of coroutines each of which awaits the coroutines it calls (task<> and lazy_task<> in any mixture, to any depth; bodies do observable things, suspend, return, throw, and decide what to do next from the results and exceptions they got), started with result() from a thread outside the pool, on any number of workers. The effects of the bodies happen exactly in the order, and with the outcomes, they would have if every co_await of a call were a plain call of a function and every suspension did nothing; result() returns (or throws) what that program of functions returns (or throws), and by then every effect of every body has happened. The only difference is that destructors of a callee's locals may run later than in the function program (never earlier, never twice, and none is lost); with one worker even they run exactly in place. The execution has at most a number of steps computed from the program, and cannot stop before result() has returned, runtime_exit() has returned and every thread is idle.

*Model and proof:* programs as a tree datatype with continuations, their meaning by recursion; executions over frames numbered by depth and threads with stacks; an invariant relates every state to what is left of the meaning (delayed destructors kept per thread), a weight computed from the program decreases with each step (`Calls/Props.v`)

*Scope:* Calls/Model.v: a stack of coroutine frames, threads with C++ stacks (an eager callee runs on top of its caller), the await_ready/await_suspend/set_value race, exceptions; Calls/Spec.v gives the meaning as function calls. C146_like_calls, C146_completes, C146_one_worker; C146_destructors_late_refuted shows that with two workers a destructor does come late (C97), which is why the claim leaves that open; C146_quick_start is the README program and C146_example_main is example/main.cc for any number of iterations and workers. Assumes that the queue hands out every task once (C14) in any order and that result() is not woken spuriously (C69).

*Theorems:* `C146_like_calls`, `C146_completes`, `C146_one_worker`, `C146_destructors_late_refuted`, `C146_quick_start`, `C146_example_main`

### C147 — Every ready task gets its turn, however often the others yield (partial)

A task that is ready (enqueued, or its deadline has passed, or its I/O is complete) gets its next turn after a bounded number of turns of other tasks, also when those never end but keep co_awaiting this_task::yield(): tasks enqueued by one thread get their turns in that order; while a task waits in the queue every other task has at most one turn before it, and while its expired timer or completed I/O waits to be noticed at most two.

*Model and proof:* a list of ready tasks per enqueuing thread, what is due per worker, a uniqueness invariant; induction over the history for the order of turns; for the refutations a round that brings back the same view of the state, repeated any number of times (`Fair/Props.v`)

*Scope:* Proved: C147_in_order_of_one_thread and C147_not_forgotten (any number of workers), C147_one_turn_each and C147_two_turns_each (one worker, nothing enqueued from outside meanwhile). False otherwise, because nothing orders what different threads enqueued: C147_task_of_main_refuted (one worker, two tasks that yield, a third started from main() never runs; with moodycamel's choice of the longest list this is what happens) and C147_two_workers_refuted.

*Theorems:* `C147_in_order_of_one_thread`, `C147_one_turn_each`, `C147_two_turns_each`, `C147_not_forgotten`, `C147_task_of_main_refuted`, `C147_two_workers_refuted`

### C148 — Coroutines that share nothing but futures compute the same on every schedule, and always end (proved)

A program that starts coroutines (run_and_get_future() of eager or lazy tasks, to any depth), hands futures on to the coroutines it starts and co_awaits futures, and shares nothing else between coroutines, has one result: result() returns the value, or throws the exception, that the program computes when every coroutine is run to its end where it is started. However the workers are scheduled, the program ends after a bounded number of steps, result() returns, every coroutine that was started ends, also those whose futures nobody awaits, and what the coroutines do is done exactly once.

*Model and proof:* programs as a tree datatype with continuations over lists of futures, their meaning by recursion; executions over numbered tasks and threads with stacks; ghost functions give each task its result, the owner of its future and a position that orders tasks before those whose futures they hold; the invariant says every state's tasks still compute those results; effects and number of tasks are preserved sums, a weight computed from the meaning decreases with each step; in a stuck state a waiting task of the greatest position would contradict the order (`Fork/Props.v`)

*Scope:* C148_deterministic, C148_completes: every program of Spec.v in which every awaited future exists (wf), every number of workers. The order in which different coroutines do things varies (C148_case shows one that is not the sequential one), what they do does not. The queue hands out tasks in any order, nobody stops the pool; locals and frames are in C17, C146. C148_futures_refine: what such a program does with any of its futures is a run of Future/Model.v (C09, C10) that ends in the matching state.

*Theorems:* `C148_deterministic`, `C148_completes`, `C148_futures_refine`

### C149 — Data guarded by a shared_mutex is free of data races (partial)

If shared data is read only while holding a koios::shared_mutex (shared or unique) and written only while holding it uniquely, then any two accesses of which one is a write are ordered by the C++ happens-before relation, on whatever threads the coroutines run, so that there is no data race and a holder of the lock sees everything written under it before.

*Model and proof:* happens-before as an inductive relation on the positions of a record of memory operations (program order, synchronizes-with from the memory orders in the code, transitivity); an invariant says which operations are ordered before the current lock holder / the zero of the counter (`Weak/SharedMutex.v`)

*Scope:* Weak/SharedMutex.v, over SharedMutex/Model.v: the operations of every step on m_lock, the scheduler and the data; happens-before from program order, std::mutex and the scheduler's queue only. C149_accesses_happen_before_each_other_partial holds for every history that does not hit one of the two defects of C04; C149_accesses_happen_before_each_other_refuted: with the defect of C04 a reader and a writer race. The read/write order of two readers is, rightly, open. Trusted: std::mutex and the scheduler's queue synchronise.

*Theorems:* `C149_accesses_happen_before_each_other_partial`, `C149_accesses_happen_before_each_other_refuted`

### C150 — The idle report of the thread pool means that the pool is idle (partial)

The message "thread_pool has been idle for a while!" is printed only when the pool has been idle for 15 seconds, with no task waiting to be executed and no timer or I/O a task waits for; no worker executes a task when it is printed; and two such messages are at least 15 seconds apart.

*Model and proof:* Worker loop with one step per atomic access, non-atomic emptiness scan, stop protocol; inductive invariants. (`ThreadPool/Health.v`)

*Scope:* ThreadPool/Health.v: every access to the counters is a step. Proved for any number of workers: no worker executes a task when it is printed (C150_nobody_works), two reports are 15 s apart if nobody sets the system clock (C150_reports_apart), its worker has looked in vain more often than there are workers (C150_looked_in_vain). C150_idle_refuted: it is printed while a task waits for a timer or for I/O (has_pending_event() is never overridden), while a task is already enqueued, and a moment after a task was executed (the condition looks at the last report, not at the last activity).

*Theorems:* `C150_nobody_works`, `C150_reports_apart`, `C150_looked_in_vain`, `C150_idle_refuted`

### C151 — The mutex works in every execution the C++ memory model allows, not only in interleavings (proved)

Whatever execution the C++ memory model allows for coroutines that use a koios::mutex (acquire, try_acquire, unlock), with the memory orders written in the code: any two accesses to the guarded data are ordered by happens-before, of two accesses by different coroutines one happens after the other coroutine's unlock, and what every acquire, try_acquire and unlock did is what it would have done in some interleaving of atomic steps.

*Model and proof:* happens-before as an inductive relation on the positions of a record of memory operations (program order, synchronizes-with from the memory orders in the code, transitivity); an invariant says which operations are ordered before the current lock holder / the zero of the counter (`Weak/MutexGraph.v`)

*Scope:* Weak/MutexGraph.v: executions are graphs (sequenced-before, reads-from, modification order) with the axioms of the C++ standard for one atomic variable (read-modify-writes read the modification before them, coherence, no cycle in happens-before). C151_every_execution_is_an_interleaving (linear extension of happens-before and modification order, Common/LinExt.v, simulated step by step by Mutex/Model.v), C151_no_data_race, C151_mutual_exclusion. So the interleaving semantics used in the other theorems about the mutex is no restriction. Trusted: what is put into the moodycamel queue or the scheduler is taken out at most once, and happens before.

*Theorems:* `C151_every_execution_is_an_interleaving`, `C151_no_data_race`, `C151_mutual_exclusion`

### C152 — wait_group joins in every execution the C++ memory model allows, not only in interleavings (proved)

Whatever execution the C++ memory model allows for a program that uses a wait_group as intended (done() only for what was added; no add() while a done() that reached zero has not returned), with the memory orders written in the code (add() is relaxed, ready() may read an old value): when a co_await of wait() completes, the counter had come down to zero after all add()s that happen before the wait, and every done() up to there happens before the completion. If all add()s happen before the wait begins, every done() of the program happens before it completes.

*Model and proof:* happens-before as an inductive relation on the positions of a record of memory operations (program order, synchronizes-with from the memory orders in the code, transitivity); an invariant says which operations are ordered before the current lock holder / the zero of the counter (`Weak/WaitGroupGraph.v`)

*Scope:* Weak/WaitGroupGraph.v: executions are graphs (sequenced-before, reads-from, modification order of m_count) with the standard's axioms: read-modify-writes read the modification before them, the four coherence requirements, no cycle in happens-before; release sequences. C152_join_visibility, C152_join, proved on the graphs directly, with no interleaving (a resumption is shown to follow the taking of the handle of the same co_await; the loop that takes it to be that of a done() which read 1). Trusted: what is put into the moodycamel queue or the scheduler is taken out at most once, and happens before.

*Theorems:* `C152_join_visibility`, `C152_join`

### C153 — Shutting the runtime down destroys every coroutine frame, once (partial)

After stop() or quick_stop() has returned, and after the queues, the event loops and main()'s tasks and futures have been destroyed, every coroutine that was ever called has had its frame destroyed, exactly once; no frame is destroyed while something else owns it; the destructors come to an end.

*Model and proof:* Heap of frames and handle objects; ownership invariant over all programs. (`Task/Teardown.v`)

*Scope:* Task/Teardown.v. False as stated: a coroutine that is in a co_await when stop() returns is never destroyed: its frame holds the future, the future the shared state, and the shared state (m_waiting) owns the frame; task_on_the_fly.h 14-27 says the destructor will ensure destruction (C153_all_destroyed_refuted; C153_awaiting_frame_never_destroyed for every such coroutine and every continuation). Proved: C153_destroyed_at_most_once (no frame twice, none that is owned elsewhere, no reference given back that was not taken, in all executions), C153_teardown_ends (bounded, and can go on until all is torn down), C153_survivors (an exact characterisation: a frame is left if and only if it belongs to a self-sustaining set of awaiting coroutines and lazy tasks when stop() returns), C153_all_destroyed_partial (if nobody is in a co_await of a future at that moment, every frame is destroyed). Assumed: destroying a toolpex::callback_promise does not call its callback; two coroutines do not await one future (C93).

*Theorems:* `C153_destroyed_at_most_once`, `C153_survivors`, `C153_awaiting_frame_never_destroyed`, `C153_all_destroyed_partial`, `C153_teardown_ends`, `C153_all_destroyed_refuted`

### C154 — The future of a functor given to thread_pool::enqueue() answers, once, with what the functor did (partial)

For every functor accepted by enqueue(): get() of its future returns what the functor returned, or throws what it threw, in its only execution and not before that has ended; it throws broken_promise exactly if the pool is destroyed with the functor never executed; it does not block once the functor has been executed or the pool destroyed; when stop() has returned, no get() of an accepted functor blocks. What a functor throws reaches its own future, or the log if it was given to enqueue_no_future(), and nothing else: the workers and the other functors go on as if it had returned.

*Model and proof:* Worker loop with one step per atomic access, non-atomic emptiness scan, stop protocol; inductive invariants. (`ThreadPool/Results.v`)

*Scope:* ThreadPool/Results.v, over ThreadPool/Model.v. Proved: C154_answers (value or exception of the only execution, after it ended; broken_promise exactly after destruction and without execution, ever), C154_once, C154_get_returns (get() returns after execution or destruction), C154_exceptions_contained (log exactly for functors without a future; with any other results the same execution is possible with the same states of the pool), C154_answered_by_stop_partial (if after stop() was called only running functors enqueue and nobody calls quick_stop(), every functor accepted has been executed when stop() has returned). Refuted: C154_stop_answers_refuted: enqueue() after a completed stop() is accepted (C16), and the owner of the pool, in get(), waits in every continuation (C154_owner_waits_forever in general). Trusted: std::packaged_task and std::future as in the standard.

*Theorems:* `C154_answers`, `C154_once`, `C154_get_returns`, `C154_exceptions_contained`, `C154_answered_by_stop_partial`, `C154_owner_waits_forever`, `C154_stop_answers_refuted`

### C155 — A graceful stop executes what happens before it even if the queues' answers are out of date (proved)

The queues of thread_pool answer with relaxed loads, so a worker may be told that a queue is empty although another thread has put something into it, as long as the worker does not know of an element that is still in it. Nevertheless, once all workers have ended after stop() (nobody calling quick_stop()), every functor that a task enqueued on a worker, at whatever time, also while stop() is running, has been executed, and so has every functor whose enqueue() happens before the call of stop() in the sense of the memory model; no functor is executed twice, and only what was enqueued. Being enqueued earlier in time only, without synchronisation with the thread that calls stop(), is not enough: such a functor may be left behind.

*Model and proof:* Worker loop with one step per atomic access, non-atomic emptiness scan, stop protocol; inductive invariants. (`ThreadPool/WeakStop.v`)

*Scope:* Model ThreadPool/WeakStop.v: as ThreadPool/Model.v without quick_stop(), plus per-thread knowledge of enqueued functors; answers of size_approx()/try_dequeue() may be out of date as far as that knowledge allows. before (inductive) is happens-before. C155_happens_before_is_needed shows that order in time is not enough. Termination of the workers is not part of it.

*Theorems:* `C155_executed`, `C155_once`, `C155_happens_before_is_needed`

### C156 — Waiting by get() inside a task is safe as long as another worker is free (partial)

A task may wait by get() or result() for a task it has started, also one that sleeps or does I/O: as long as another worker is not blocked, the get() returns.

*Model and proof:* Transition system of tasks given by arbitrary finite programs (start eagerly or lazily, yield, co_await, blocking get) on n workers and the main thread, each with a stack of coroutines; inductive invariant, decreasing measure for termination, progress by the latest task that has not ended, counting argument for the blocking tasks. (`Blocking/OwnLoop.v`)

*Scope:* Refuted: in every program, for any number of workers and under every schedule, a task that calls get() on an eager task which begins by sleeping (or I/O) never ends: the awaited task is in the event loop of the blocked worker, and nobody else looks there (C156_get_of_eager_sleeper_refuted; C156_one_get_blocks_refuted: all other workers idle, the program stuck). Proved: as long as a worker is not inside get(), only such a task can stop the program (C156_only_own_loops_partial).

*Theorems:* `C156_own_loop_blocks_for_good`, `C156_get_of_eager_sleeper_refuted`, `C156_one_get_blocks_refuted`, `C156_only_own_loops_partial`

### C157 — dir_mutex: cancel_all_polling() and the destructor return (partial)

cancel_all_polling() of a dir_mutex, and its destructor, return after a bounded number of steps of the pollers of the object, whoever calls them and whatever the polls have met.

*Model and proof:* Lock file, objects, pollers, hubs; one step per openat/unlinkat/queue operation; invariant counting the owner of the file. (`DirMutex/CancelReturns.v`)

*Scope:* Refuted: called on a worker (a dir_mutex that dies in a coroutine) while a poller of the object is asleep in that worker's timer, the call never returns, for any number of workers and under every schedule (C157_own_timer_refuted); nor do the calls when every worker is in one with a live poller, e.g. the only worker (C157_all_workers_refuted); nor when a poll has failed: get() throws inside a noexcept function and std::terminate ends the program (C157_failed_poll_refuted, C157_failed_poll_case). Proved: a call waits for at most to_come steps, a number no other step raises, and each step it waits for lowers (C157_bounded_partial); if calls are made outside the pool and no poll fails such a step is possible until the call has returned (C157_returns_outside_partial). A call waits for exactly the pollers of its object started since the last call (C157_waits_for_all_partial).

*Theorems:* `C157_own_timer_refuted`, `C157_all_workers_refuted`, `C157_failed_poll_refuted`, `C157_bounded_partial`, `C157_returns_outside_partial`, `C157_waits_for_all_partial`

### C158 — What the workers did is visible after stop() (proved)

Under the C++ memory model, everything that functors, tasks and event loops did on the worker threads happens before the return of stop() or quick_stop() of a thread pool, in whichever thread that calls it, also if several threads call it at the same time or one after the other; no worker executes anything after such a return.

*Model and proof:* happens-before as an inductive relation on the positions of a record of memory operations (program order, synchronizes-with from the memory orders in the code, transitivity); an invariant says which operations are ordered before the current lock holder / the zero of the counter (`Weak/Stop.v`)

*Scope:* Weak/Stop.v: happens-before over program order, join and call_once (both environment), any number of workers and callers.

*Theorems:* `C158_visible_after_stop`

### C159 — Functors see what was done before they were enqueued, and their results what they did (proved)

Under the C++ memory model, everything a thread did before it enqueues a functor happens before everything the functor does, on whichever worker it is executed; and everything the functor does happens before the return of get() of its future (by value or exception) and before what the caller of get() does afterwards. Functors that enqueue functors and obtain results are included.

*Model and proof:* happens-before as an inductive relation on the positions of a record of memory operations (program order, synchronizes-with from the memory orders in the code, transitivity); an invariant says which operations are ordered before the current lock holder / the zero of the counter (`Weak/Functors.v`)

*Scope:* Weak/Functors.v: happens-before over program order, the queue's hand-over and std::packaged_task/std::future (both environment).

*Theorems:* `C159_what_was_done_before_enqueue`, `C159_what_the_functor_did`

### C160 — The timers of all workers can be used concurrently without data races (partial)

Under the C++ memory model, any two conflicting accesses to the timer registry or to a worker's timers, made by different threads, are ordered by happens-before, whatever is called at the same time: adding timers (sleeping), the workers' own polling and computing of how long they may sleep, registration of a worker, done() and print_status(), quick_stop(), from any thread.

*Model and proof:* happens-before as an inductive relation on the positions of a record of memory operations (program order, synchronizes-with from the memory orders in the code, transitivity); an invariant says which operations are ordered before the current lock holder / the zero of the counter (`Weak/Timers.v`)

*Scope:* Weak/Timers.v. False of the code: add_event() in a thread that is no worker inserts into the unordered_map under the shared lock while workers read it (C160_foreign_thread_refuted); and by the standard's reading, in which operator[] of an unordered_map counts as a modification even if the key is present, two workers race (C160_operator_brackets_refuted). Proved for programs whose timers are added by workers, with a map whose operator[] only reads if the key is present (libstdc++).

*Theorems:* `C160_no_race_partial`, `C160_foreign_thread_refuted`, `C160_operator_brackets_refuted`

### C161 — The kernel only touches memory of coroutines that exist (partial)

Once the frame of a coroutine has been destroyed, the kernel neither reads nor writes memory of an operation that coroutine had started (buffers, addresses, timespecs, the batch itself), the coroutine is not resumed and not destroyed a second time; also while workers stop and end.

*Model and proof:* Batch builder, ring per thread, kernel as environment; invariants by induction on histories, list lemmas for the builder. (`IoUring/Alive.v`)

*Scope:* IoUring/Alive.v. False of the code when a worker ends while an operation of its ring is in the kernel: io_uring_queue_exit() does not wait for the kernel, and m_opreps destroys the frames right after it (C161_stop_refuted). Proved for executions in which no worker ends with operations in the kernel, and for every execution on a kernel whose teardown is synchronous.

*Theorems:* `C161_kernel_touches_living_frames_partial`, `C161_stop_refuted`

