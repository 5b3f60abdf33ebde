# Formal model of koios in Rocq (Coq 8.16.1)

Sources: `/repo` (JPewterschmidt/koios, pinned commit), read as text only; nothing was built or run.
This file is produced by `python3 tools/design.py` from `tools/design_head.md` (sections 1-5), `properties.jsonl`, `tools/notes.json`
and the theorem names found in `rocq/theories` (section 6).

## 1. Conventions

* One directory per component under `rocq/theories/`: `Model.v` (executable definitions, each citing file and lines),
  `Spec.v` (small vocabulary used by the statements, when one is needed), `Proofs.v` (invariants), `Props.v` (the property
  theorems, each followed by `Print Assumptions`, and `Example`s showing that a concrete, non-trivial case meets the hypotheses).
  Components that came later keep model and properties in one file per topic (`Tcp/`, `Protobuf/`, `IoUring/Cancel.v`, `DirMutex/Blocking.v`).
* Concurrency: a small-step transition system `step : state -> event -> option state` whose steps are the atomic accesses of
  the C++ code (one atomic read-modify-write, one queue operation, one critical section of a `std::mutex`/spin lock, one
  scheduler action). Theorems quantify over every finite list of events, i.e. every interleaving, with any number of threads,
  coroutines and objects. `None` means that the event is not enabled. `run`, `run_all` (a condition that holds before each event), `trace`
  (what is observable) are in `Common/TS.v`.
* The kernel, the clock, the hash-table iteration order, moodycamel's choice of element, heap algorithms, user callbacks and protobuf are
  arguments of the theorems (arbitrary functions, answer lists or events), constrained only by what their documentation promises.
* Undefined behaviour, `std::terminate` and assertion failures are distinct, recorded outcomes, never normal values.
* A property that the code violates is kept in `properties.jsonl`. `*_refuted` theorems prove its negation (a witness
  execution of the model, or, where possible, "in every state ..."); `*_partial` theorems prove the part that holds. Status: `partial`.
  A property is `proved` only if its theorems together give its full English statement.

## 2. Trusted base

* The kernel of Coq 8.16.1 (`coqc`, compiled `.vo` files checked in one build by `vcheck`).
* Axioms: none. Every property theorem is followed by `Print Assumptions`, and each prints `Closed under the global context`
  (also no standard-library axiom: no classical logic, no functional extensionality, no real numbers). `vcheck` lists seven constants
  `Coq.ssr.ssrunder.Under_rel.*`: they are parameters of a functor argument in the standard library's ssreflect files, which are loaded with
  it; no theorem depends on them.
* Libraries: Coq's standard library only (`List`, `Arith`, `ZArith`, `Bool`, `Permutation`, `Lia`, `Sorting`).
* No `Admitted`, no axioms, no module types or functors, no disabled kernel checks, no plugins. `lia`, `vm_compute` are used; what they
  produce is checked by the kernel (`vm_compute` is part of it).
* The translation from C++ to the model, by hand. Each definition cites the lines it stands for and says what it leaves out.

General simplifications, beyond those stated in the files:
 * memory orders are taken as sequentially consistent, except in Weak/ (C131, C132); races on non-atomic data are looked at only where a property is about them;
 * memory allocation does not fail; `noexcept` and exceptions are modelled where they matter (C17, C44, C50, C51, C71, C83);
 * numbers are unbounded unless their wrap-around is the point (32/64-bit arithmetic is explicit in Errors, Transfer, WaitGroup, Tcp/Deadline,
   IoUring's miss counter and Functional's dispatch counter);
 * fairness: progress properties are stated as "some step is enabled and leads there", "at most k further own steps" or "in every
   state where nothing else is in progress"; no fairness of the OS scheduler is assumed or proved.

## 3. What is modelled, what is not

| source | model |
|---|---|
| coroutine_mutex.{h,cc}, acq_lk_aw.h | `Mutex/` (atomic flag, bag of waiters, pcs of acquire/release) |
| lock_base.h, unique_lock.h, shared_lock.h | `LockBase/` |
| coroutine_shared_mutex.{h,cc} | `SharedMutex/` |
| wait_group.h (group and guard) | `WaitGroup/` |
| future.h, future.cc, future_aw.{h,cc} | `Future/` (toolpex future_frame/callback_promise: assumed) |
| timer.{h,cc}, this_task.h sleep functions | `Timer/` |
| work_stealing_queue.h, moodycamel_queue_wrapper.cc | `WSQueue/` |
| thread_pool.{h,cc}, task_scheduler.h | `ThreadPool/` |
| task.h, task_on_the_fly.h, task_release_once.h, waiting_handle.cc | `Task/` |
| generator.h, generator_shared_state.h | `Generator/` |
| iouring.{h,cc}, iouring_op_batch*.{h,cc}, cancel functions of iouring_op_functions.cc | `IoUring/` |
| iouring_ioret.{h,cc}, exceptions.{h,cc}, error_category.{h,cc} | `Errors/` |
| iouring_awaitables.{h,cc}, unique_file_state.{h,cc} | `Transfer/` |
| expected.h | `Expected/` |
| dir_mutex.{h,cc}, async_awaiting_hub.h | `DirMutex/` |
| event_loop.h, user_event_loop(s) | `EventLoop/` |
| functional.h | `Functional/` |
| std_queue_wrapper.h, local_thread_scheduler.h, invocable_queue_wrapper.{h,cc} | `Queues/` |
| tcp_server.{h,cc}, tcp_util.{h,cc}, timeout arithmetic of all overloads | `Tcp/` |
| iouring_protobuf.h | `Protobuf/` |
@@EXTRA@@

Not modelled: concepts and traits headers (compile-time only: `*_concepts.h`, `traits.h`, `macros.h`, `env.h`, `std_future_extension.h`),
`example/` other than main.cc, logging, spdlog, liburing's internals (the ring is abstract), toolpex (assumed to do what its names say), the C++ memory model except what `Weak/` has of it (happens-before for the orders the code uses).

## 4. Reading the theorems

`run (step ..) init l = Some s` reads "the history `l` is possible and ends in state `s`"; `run_all step P init l` reads "and before every
event of `l` the condition `P` holds"; `trace` is the list of observations (what callers see). `upd f k v` is `f` with `f k := v`.
Seeded bugs: `tools/seed.py` edits a scratch copy of a model, rebuilds every dependent file with broken proofs replaced by
`Admitted`, and reports all theorems that fail or rest on something that failed; results are in `seeded/LOG.jsonl`.

## 5. Findings (defects of the code shown by refuted theorems or seen while reading)

Shown by theorems: see every `_refuted` theorem in section 6; the most serious ones: mutex and wait_group lose wake-ups (C02, C07),
shared_mutex admits a reader together with a writer and loses waiters (C04, C05), tasks enqueued after `stop()` are accepted and lost (C16),
sleepers pending at `stop()` are lost (C67), a throwing generator hangs its consumer (C71), batch results are in completion order (C24),
re-executing a batch is undefined behaviour (C58), batches above 1024 entries dereference null (C59), append to plain files overwrites (C82),
end of stream spins (C49), dir_mutex loses its lock file and deadlocks all workers (C31, C61), a second `get_fd()` closes twice (C90),
port literals wrap (C62), `until_done` returns early (C89), truncated protobuf sends report success (C88),
tasks that yield can starve a task started from another thread, or on another worker (C147), `get()` called by a functor or task on a worker can block on what only that worker's event loop can complete (C156),
`cancel_all_polling()` and the destructor of a directory lock can wait for ever for pollers (C157),
`sleep_for` on a thread that is no worker writes the timer registry under a shared lock (C160),
a worker that ends with operations in the kernel destroys the buffers the kernel still writes to (C161).

Seen while reading, not expressed as theorems: `iouring_protobuf.h` has an `#endif` without `#if`; `recv_pb_message` allocates up to
4 GiB from an untrusted prefix; `bind_get_sock_tcp` ignores its `flags`; `tcp_server`'s move assignment is declared but never defined;
an accept loop whose accepts fail permanently spins without back-off.

