{
 "_extra": [
  [
   "task.h (operator co_await), promise_base.h, return_value_or_void.h, this_task.cc",
   "`CoAwait/` (order of events between caller and callee)"
  ],
  [
   "iouring_op_batch.h, iouring_op_peripheral.h/.cc, iouring_op_batch_rep.h (objects: construction, move, destruction, allocators), iouring_single_op_aw.h/.cc",
   "`BatchObj/`"
  ]
 ],
 "Mutex": "Atomic flag, bag of waiters and one program counter per coroutine; inductive invariant over all interleavings (owner token conserved), refinement of the log to the abstract lock.",
 "LockBase": "Table of handle objects plus the log of acquire/release calls; invariant: outstanding acquisitions = owning handles.",
 "SharedMutex": "State machine of the critical sections with ghost holders; invariants under the stated history conditions, witnesses for the refutations.",
 "WaitGroup": "Counter modulo 2^64, bag of waiters, two-step wait and done; refinement to an abstract automaton, invariants; guards: table of objects.",
 "Future": "Shared state with frame slot, waiting slot and condition variable; invariants over all histories, answers characterised as functions of the log.",
 "Timer": "Per-thread heaps with arbitrary standard-conforming push/pop, poll split at its lock release; log refinement to bags of sleepers.",
 "WSQueue": "Copy-on-write map of queues, stealing scan in steps; permutation invariant between log and contents.",
 "ThreadPool": "Worker loop with one step per atomic access, non-atomic emptiness scan, stop protocol; inductive invariants.",
 "Task": "Heap of frames and handle objects; ownership invariant over all programs.",
 "Generator": "Generator and consumer as two interleaved state machines; invariant relating yielded, received and pending values. unique/merge: functional programs on lists.",
 "IoUring": "Batch builder, ring per thread, kernel as environment; invariants by induction on histories, list lemmas for the builder.",
 "Errors": "Pure functions on integers; case analysis over all 32-bit values / all classes.",
 "Transfer": "The loops as recursive functions on the list of kernel answers; induction on it.",
 "Expected": "Sum type with effectful functions over an arbitrary world; equational proofs.",
 "DirMutex": "Lock file, objects, pollers, hubs; one step per openat/unlinkat/queue operation; invariant counting the owner of the file.",
 "EventLoop": "Tables of loops and threads, aggregate polling, shared static vector; invariants and fold lemmas.",
 "Functional": "Await loops as a transition system over launches and completions; dispatch counter arithmetic.",
 "Queues": "List queue; big-step scheduler over spawn trees; object table for the type-erased wrapper.",
 "Tcp": "Accept loops and until_done as a transition system; parsing and deadline arithmetic as functions.",
 "Protobuf": "Framing as functions over kernel answers, on top of the fill model.",
 "CoAwait": "Caller and callee as interleaved state machines with threads; inductive invariant, bounded-progress argument.",
 "BatchObj": "Heap-like model (memory resources, copied objects, batch objects); inductive invariant on ownership and liveness; refinement to the history-defined list of operations asked for.",
 "Prep": "liburing's prep functions and the kernel's reading of an entry as functions on integers; invariant over the list of calls; chain semantics with arbitrary durations for the timeout.",
 "Runtime": "Transition systems for the mutex monitor with its printing threads (ownership of the monitor's lock as state), for the life of the global scheduler, and for destruction of a pool of any number of workers and loops; inductive invariants, a decreasing measure for termination.",
 "Blocking": "Transition system of tasks given by arbitrary finite programs (start eagerly or lazily, yield, co_await, blocking get) on n workers and the main thread, each with a stack of coroutines; inductive invariant, decreasing measure for termination, progress by the latest task that has not ended, counting argument for the blocking tasks.",
 "Weak": "happens-before as an inductive relation on the positions of a record of memory operations (program order, synchronizes-with from the memory orders in the code, transitivity); an invariant says which operations are ordered before the current lock holder / the zero of the counter",
 "Structured": "programs of any number of tasks over mutexes, wait groups and task results on one worker; an invariant with ghost ownership, a decreasing measure and a maximal-rank argument give completion; a simulation per mutex, group and future onto Mutex/, WaitGroup/ and Future/ models; scoped programs with exceptions are simulated by the linear programs they amount to",
 "Calls": "programs as a tree datatype with continuations, their meaning by recursion; executions over frames numbered by depth and threads with stacks; an invariant relates every state to what is left of the meaning (delayed destructors kept per thread), a weight computed from the program decreases with each step",
 "Fair": "a list of ready tasks per enqueuing thread, what is due per worker, a uniqueness invariant; induction over the history for the order of turns; for the refutations a round that brings back the same view of the state, repeated any number of times",
 "Fork": "programs as a tree datatype with continuations over lists of futures, their meaning by recursion; executions over numbered tasks and threads with stacks; ghost functions give each task its result, the owner of its future and a position that orders tasks before those whose futures they hold; the invariant says every state's tasks still compute those results; effects and number of tasks are preserved sums, a weight computed from the meaning decreases with each step; in a stuck state a waiting task of the greatest position would contradict the order"
}