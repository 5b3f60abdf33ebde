-Q theories Verif

theories/BatchObj/Aw.v
theories/BatchObj/Model.v
theories/BatchObj/Proofs.v
theories/BatchObj/Props.v
theories/BatchObj/Spec.v
theories/Blocking/Code.v
theories/Blocking/Model.v
theories/Blocking/OwnLoop.v
theories/Blocking/Props.v
theories/Calls/Model.v
theories/Calls/Proofs.v
theories/Calls/Props.v
theories/Calls/Runs.v
theories/Calls/Spec.v
theories/Calls/Steps.v
theories/Calls/Steps2.v
theories/CoAwait/Model.v
theories/CoAwait/Props.v
theories/Common/LinExt.v
theories/Common/ListX.v
theories/Common/Sum.v
theories/Common/TS.v
theories/DirMutex/Blocking.v
theories/DirMutex/Cancel.v
theories/DirMutex/CancelReturns.v
theories/DirMutex/Holds.v
theories/DirMutex/Model.v
theories/DirMutex/Proofs.v
theories/DirMutex/Props.v
theories/DirMutex/Spec.v
theories/Errors/Holds.v
theories/Errors/Model.v
theories/Errors/Props.v
theories/Errors/Stale.v
theories/EventLoop/Callbacks.v
theories/EventLoop/Holds.v
theories/EventLoop/Late.v
theories/EventLoop/Model.v
theories/EventLoop/Proofs.v
theories/EventLoop/Props.v
theories/EventLoop/Spec.v
theories/Expected/Model.v
theories/Expected/Props.v
theories/Expected/Spec.v
theories/Fair/Model.v
theories/Fair/Proofs.v
theories/Fair/Props.v
theories/Fork/Futures.v
theories/Fork/Model.v
theories/Fork/Proofs.v
theories/Fork/Props.v
theories/Fork/Refine.v
theories/Fork/Runs.v
theories/Fork/Spec.v
theories/Fork/Steps.v
theories/Fork/Steps2.v
theories/Functional/Holds.v
theories/Functional/Lifetime.v
theories/Functional/Model.v
theories/Functional/Proofs.v
theories/Functional/Props.v
theories/Functional/Spec.v
theories/Future/Holds.v
theories/Future/Model.v
theories/Future/Proofs.v
theories/Future/Props.v
theories/Future/Spec.v
theories/Generator/Demand.v
theories/Generator/Holds.v
theories/Generator/Leak.v
theories/Generator/Model.v
theories/Generator/Pipeline.v
theories/Generator/Proofs.v
theories/Generator/Props.v
theories/Generator/Spec.v
theories/IoUring/Again.v
theories/IoUring/Alive.v
theories/IoUring/Cancel.v
theories/IoUring/Holds.v
theories/IoUring/Model.v
theories/IoUring/Proofs.v
theories/IoUring/Props.v
theories/IoUring/Props2.v
theories/IoUring/Spec.v
theories/IoUring/Stop.v
theories/IoUring/TaskId.v
theories/LockBase/Model.v
theories/LockBase/Proofs.v
theories/LockBase/Props.v
theories/LockBase/Spec.v
theories/Mutex/Destroy.v
theories/Mutex/Model.v
theories/Mutex/Programs.v
theories/Mutex/Proofs.v
theories/Mutex/Props.v
theories/Mutex/Serial.v
theories/Mutex/Single.v
theories/Mutex/Spec.v
theories/Mutex/Stranded.v
theories/Prep/Chain.v
theories/Prep/Kernel.v
theories/Prep/Model.v
theories/Prep/Proofs.v
theories/Prep/Props.v
theories/Prep/Spec.v
theories/Protobuf/Framing.v
theories/Queues/Hub.v
theories/Queues/Model.v
theories/Queues/Proofs.v
theories/Queues/Props.v
theories/Queues/Spec.v
theories/Runtime/Monitor.v
theories/Runtime/Props1.v
theories/Runtime/Signal.v
theories/Runtime/SignalGood.v
theories/Runtime/SignalProps.v
theories/Runtime/Teardown.v
theories/SharedMutex/Holds.v
theories/SharedMutex/Isolation.v
theories/SharedMutex/Model.v
theories/SharedMutex/Proofs.v
theories/SharedMutex/Props.v
theories/SharedMutex/Spec.v
theories/SharedMutex/Waiting.v
theories/Structured/Model.v
theories/Structured/Proofs.v
theories/Structured/Props.v
theories/Structured/Refine.v
theories/Structured/Scoped.v
theories/Structured/ScopedProofs.v
theories/Structured/ScopedProps.v
theories/Structured/ScopedSpec.v
theories/Structured/Spec.v
theories/Task/AfterStop.v
theories/Task/Count.v
theories/Task/Model.v
theories/Task/Proofs.v
theories/Task/Props.v
theories/Task/Spec.v
theories/Task/Teardown.v
theories/Task/UsedUp.v
theories/Tcp/Deadline.v
theories/Tcp/Deplete.v
theories/Tcp/Literal.v
theories/Tcp/Moved.v
theories/Tcp/Server.v
theories/Tcp/ServerProps.v
theories/Tcp/Sock.v
theories/ThreadPool/Health.v
theories/ThreadPool/Holds.v
theories/ThreadPool/Idle.v
theories/ThreadPool/Model.v
theories/ThreadPool/Proofs.v
theories/ThreadPool/Props.v
theories/ThreadPool/Results.v
theories/ThreadPool/Sleepers.v
theories/ThreadPool/Spec.v
theories/ThreadPool/StartUp.v
theories/ThreadPool/Turns.v
theories/ThreadPool/WeakStop.v
theories/Timer/Clock.v
theories/Timer/Holds.v
theories/Timer/Long.v
theories/Timer/Model.v
theories/Timer/Proofs.v
theories/Timer/Props.v
theories/Timer/Spec.v
theories/Timer/Stop.v
theories/Transfer/Holds.v
theories/Transfer/Model.v
theories/Transfer/Outcome.v
theories/Transfer/Proofs.v
theories/Transfer/Props.v
theories/Transfer/Spec.v
theories/WSQueue/Affinity.v
theories/WSQueue/Holds.v
theories/WSQueue/Model.v
theories/WSQueue/Proofs.v
theories/WSQueue/Props.v
theories/WSQueue/Spec.v
theories/WaitGroup/Destroy.v
theories/WaitGroup/Guard.v
theories/WaitGroup/GuardProofs.v
theories/WaitGroup/Holds.v
theories/WaitGroup/Model.v
theories/WaitGroup/Proofs.v
theories/WaitGroup/Props.v
theories/WaitGroup/Single.v
theories/WaitGroup/Spec.v
theories/WaitGroup/Stranded.v
theories/Weak/Functors.v
theories/Weak/Future.v
theories/Weak/Generator.v
theories/Weak/HB.v
theories/Weak/Mutex.v
theories/Weak/MutexGraph.v
theories/Weak/Self.v
theories/Weak/SharedMutex.v
theories/Weak/Stop.v
theories/Weak/Timers.v
theories/Weak/WaitGroup.v
theories/Weak/WaitGroupGraph.v
