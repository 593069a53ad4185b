# Formal model of threadpp (volcoma/itc) in Rocq/Coq 8.16

## 1. What is modelled

The whole library (`/repo/threadpp`) is modelled as one interleaving transition
system.  A state is

* a *memory* (`State.v`, record `heap`): the registry (`program_context`), the
  `thread_context` objects, `local_data` of every native thread, the status of
  native threads, `tpp::thread` objects, the clock, semaphores and interrupt
  tokens, long-held mutexes, `tpp::mutex` objects, future states, promise and
  future objects, `when_all`/`when_any` contexts, pools, and the history of
  observable events;
* one *stack of frames* per native thread (`Code.v`): a frame is a program point
  of a library function with its local variables.

| file | content |
|---|---|
| `Types.v` | ids, closures (defunctionalised: one constructor per C++ lambda), API calls, events, kinds of undefined behaviour |
| `Core.v` | the data structures and the critical sections as pure functions |
| `State.v` | the memory record |
| `Ops.v` | the atomic operations (`op`, `atom`): one critical section / one atomic access each |
| `Code.v` | control flow: `code` (what a frame does), `catch` (stack unwinding), `api_frames` (entry points) |
| `Machine.v` | `step`, `run`, `reachable`, `trace` |
| `Scenario.v` | language for writing concrete executions (examples, counterexamples) |

The model is the files above (without `Scenario.v`).  Statements and proofs are
kept apart from it:

| files | content |
|---|---|
| `Spec.v`, `Spec*.v` | vocabulary of the statements; almost all speak only of histories (lists of events) and API calls, a few (`SpecState`, `SpecOwn`, `SpecStuck`, `SpecLive`, `SpecCheck`, `SpecWork`, `SpecServe`, `SpecHolder`, `SpecLost`, `SpecReadySeen`) also of the machine state |
| `Props*.v` | the theorems, each `exact` a lemma of another file, with examples and refutations beside them |
| `Thm*.v` | lemmas rephrased in the words of the statements |
| `Base`, `Rules`, `Events`, `Adj`, `Count`, `Calls`, `CallLoc`, `Contract`, `ContractLib`, `Calm`, `SemWait` | proof rules: induction over executions, over frames, over neighbouring frames, counting rules, contracts of API calls |
| `Replay*.v` | the memory is a function of the history |
| `Api*.v` | the API calls meet their contracts |
| `Own*.v` | counting owners of promises, references to combinators, closures of jobs |
| `Inv*.v` | all other invariants |

### Events
The history records what the properties speak about.  Besides calls and results
(`EvCall`, `EvRet`, `EvThrow`) there are events for the registry, the queues,
sleeping and waking, condition variables, locks, shared states, continuations,
packaged functions, combinators and pools; every event names the acting thread
where there is one.  They are recorded by the operation that has the effect, in
the same atomic step.  Some exist only to make statements possible: `EvState` says
what a shared state was created for (its purpose), `EvRetr` records
`future_retrieved`, `EvHook` and `EvWhen` tell which input of which combinator a
continuation serves, `EvWorker`, `EvWorkersOut`, `EvJobSkip` and `EvJobClear` tell
what happens inside a pool.  That an event is recorded exactly when its effect
takes place is part of the model and visible in `Ops.v`; the `Replay*` files prove
that the memory can be recomputed from the events.

User code is arbitrary: a thread whose top frame is user code may call any API
function with any arguments, return any value or throw any exception
(`LCall`, `LRet`, `LThrow`).  The scheduler is arbitrary (`LStep t inp`); `inp`
resolves what C++ leaves open (native thread id chosen by the OS, spurious wake
ups, which of several equal-priority heap elements is on top).  Time is
arbitrary (`LTick`).  There is no bound on threads, tasks, futures, jobs,
nesting depth or length of the execution.  Theorems have the form
`forall s, reachable s -> ...` or `forall ls s, run st0 ls = Some s -> ...`.

Undefined behaviour (relocking a `std::mutex`, use of a destroyed context, null
dereference, `std::terminate`, a violated documented precondition) is an
explicit outcome (`ubs s = Some _`) after which the machine stops.

### Granularity
Everything done under one of the leaf mutexes (`global_context.mutex`,
`tasks_mutex`, `semaphore::mutex_`) is one atomic step; every access to a
`std::atomic` outside is one atomic step; `basic_state::guard`, the combinator
`context::mutex`, `thread_pool::impl::guard_` and user mutexes are held across
steps and are modelled as locks.  Sequential consistency is assumed (the code
uses only default-order atomics and mutexes).  C79 checks the assumption for the
plain members guarded by those longer held mutexes: apart from two reads without
a lock they are accessed with their mutex held.  `future_state<void>` reads the
exception without the guard, so that step does not wait for the lock.
`global_context.config` is also read without a lock by the logging functions
while `init` and `shutdown` write it; the configuration is not modelled.

### Simplifications (trusted modelling decisions)
* ids and counters are unbounded (`nat`/`Z`); 64-bit wrap is not modelled.
  `processing_stack_depth` and `init_count` are in `Z`, so a decrement below zero
  would show as a negative number.
* Vector capacities, thread names, `init_data` callbacks and logging are left out;
  callbacks given to `init` are assumed not to call the library.
* `std::bad_alloc` and failure of `std::thread`/`std::mutex` primitives are not modelled.
* User closures are opaque names plus the promise objects they captured by move;
  destroying a closure destroys those promises.  Other captured objects whose
  destructors call the library are not modelled.
* `future_state` objects are never freed (their lifetime is by `shared_ptr`); a
  value moved out by a unique future stays readable, with a flag.
* A destroyed promise/future/pool/thread object is treated like a moved-from one.
* `AFFromVal` lets user code make a future object for any state (it stands for
  futures taken out of a `when_all`/`when_any` result); this allows more
  behaviours than C++.
* The user may name any native id in `register_thread`.
* `std::priority_queue` is a list; `top()` may be any element of maximal priority.
* `task = {}` in `process_one`, and the unspecified order in which
  `unordered_map::clear` destroys jobs, are one fixed order.
* `wait_until` of condition variables and futures is not an API call of its own: it is a
  `wait_for` whose duration the caller computed from the clock (C78).  One clock is assumed.
* SC memory, no spurious failure of mutexes.

## 2. Trusted base
The Coq 8.16.1 kernel (and `vm_compute`'s conversion for examples/refutations),
the modelling decisions above, and the reading of the C++ source.  No axioms are
declared; section 4 records what `Print Assumptions` reports.

`detail/utility/capture.hpp` and `apply.hpp` have a small sequential model of their own
(`Capture`, property C75).  It takes the elements of a tuple from left to right;
`C75_any_order` shows that every other order gives the same.  While
reading it I noticed that an argument given as `std::ref` should not compile (not tried): the tuple
holds a `T&`, but the lambdas in `package_simple_task` and `apply_and_forward_as` want
a `std::reference_wrapper<T>&`.  Only a callable given by `std::ref` can be bound by reference.

Not modelled at all: `detail/utility/invoke.hpp` (overload selection at compile time), `tests/`, CMake files, `when_all_any.hpp` template plumbing other than
the algorithms, `make_shared_thread` (a `make_shared` of `make_thread`).

## 3. Properties
All properties are in `properties.jsonl`.  Method legend: **I** = inductive
invariant of the machine; **T** = invariant over the recorded history;
**P** = progress/liveness argument on states; **W** = concrete witness execution
computed by `vm_compute` (for violated properties, theorem name ends in
`_refuted`, together with the strongest restricted positive theorem I proved,
named `_partial`).

| id | where | how |
|---|---|---|
| C01-C03 | `InvCtx`, `InvQueue`, `ThmRegistry`, `ApiReg` | I: registry and contexts agree with the history |
| C04, C11 | `ApiReg` | contract of invoke and dispatch |
| C05, C06 | `InvQueue`, `InvEvents` | T: accepted = started ++ pending per context; destroyed only with the context |
| C07, C08 | `InvAff`, `InvSleep`, `ThmSleep` | I: attachment and ownership; a sleeper is woken by work or exit |
| C09, C10 | `InvRun`, `InvDrift`, `ApiReg` | T; W for exceptions |
| C12, C13, C16, C17 | `InvEvents`, `ApiWait`, `ApiIdle` | T and contracts |
| C14 | `InvWork` | I over continuations of an execution: a measure of the worker |
| C15 | `ApiReg`, `Replay` | T and contract |
| C18-C24 | `InvCv`, `SemWait`, `ApiSync`, `ThmSync` | I/T and contracts; W for nested waits (C21) |
| C25-C27, C57 | `InvMutex`, `ApiMutex`, `ThmMutex` | I/T and contracts; W (C27, C57) |
| C28-C33, C37, C38 | `ReplayFut`, `ApiSet`, `ApiFut`, `ApiObj`, `ApiLaunch`, `InvFire`, `InvAttach` | T and contracts; W (C30) |
| C34-C36 | `Own*` (`OwnWhere` for where a queued function runs), `InvPack`, `InvKind` | counting owners; W (C36) |
| C39 | `InvLock`, `InvGuard` | I; W for tasks destroyed under the lock |
| C40-C43, C60 | `InvWhen`, `InvFill`, `InvHook`, `InvComb`, `InvBroken`, `InvArmed`, `ThmWhen`, `InvOnce`, `ApiWhen` | I; W (C42); C43 by induction |
| C44-C48, C54 | `InvJobs`, `InvTab`, `InvBuild`, `InvCheck`, `OwnJob`, `ApiPool`, `ThmPool`, `ThmCheck` | I/T, counting, contracts |
| C49-C51, C53 | `InvJobs`, `ApiFut`, `ApiPool` | partial + W |
| C52, C55 | `ApiKill`, `ApiObj` | contracts |
| C56, C59 | `InvLive` | I: a dead context is touched only by its owner; W |
| C61 | `ApiThrow` | contract: which frames of a call may let an exception pass |
| C62 | `InvUb` | contract: which frames of a call may go wrong; undefined operations by cases on the program point. Termination, relocking and destroyed contexts are not covered here (see C59, C63, C64) |
| C63 | `InvTerm` | what runs above a destructor or the end of a thread; contract for the join of a destroyed thread object |
| C64 | `InvRelock` | what runs above the frame that holds the mutex of a state, a combinator, a pool; contract for the mutexes of the user |
| C65 | `InvCause` | C59, C62, C63 and C64 put together: every state with undefined behaviour has a cause in its trace |
| C66 | `InvLost` | events after a release and before its notification; top program points between a failed test_and_set and the registration |
| C67 | `InvHandle` | sentinels replayed from the trace; contracts for stop and change_priority through a handle |
| C68 | `InvJobWait`, `InvJobReady`, `ThmJobWait` | ownership weights of the two closures of a job; adjacent-frame invariant of the frames that set a pool future |
| C69 | `InvTaken` | top program points of get with the last thing the thread saw; the ghost flag fs_taken of a state |
| C70 | `ThmOrder` | from C48 and C49: the entries of the queue were given to the jobs |
| C71 | `InvHolder` | what runs above the frame that holds an internal mutex, as in C64; none of it blocks except the lock of a state below a combinator |
| C72 | `InvServe` | ranking of the program points of the worker loop together with the number of tasks waiting, as in C14; no lost wakeup (C08) |
| C73 | `InvReadySeen` | events after a completion and before its notification; top program points between the test of ready and the registration, under the mutex of the state |
| C74 | - | refuted by a concrete execution in `PropsReadySeen` |
| C75 | `InvCapture` | sequential model of its own (`Capture`): induction over the history of copies |
| C76 | `ThmOvertake`, `InvLook` | induction over the history from C48 and C49; following a worker from the start of a check to its look into the queue |
| C77 | `InvStarted` | invariant over the stack of the thread that started the closure; combined with the progress of C72 |
| C78 | `ThmUntil` | from C24 and C37: the clock never goes back |
| C79 | `InvRace`, `InvRaceGet` | each plain member is accessed with its mutex held, except the two reads named in `SpecRace` and the elements of a combinator, which its caller fills before any continuation can touch them; both races are shown by concrete executions in `PropsRace` |
| C80 | `InvBegun` | invariant: a continuation that was started has run or is at the top of the stack of its thread; with the counts of C40/C41 (`InvBroken`, `InvArmed`) and the progress of C72 |
| C81 | `InvTook`, `InvTookWait` | invariant: from the step that takes the job on, the future is ready or the stack of the thread has a frame that is at work on it; from C77 and the table of jobs (`InvTab`) |
| C82 | `InvRest` | from the owners of a state (`OwnTask`) and the place of a job (`InvJobReady`): a job that does not wait and is not being run has no closure left anywhere in the heap |
| C83 | `InvRestWhen` | from the count of references to a combinator (`OwnRefs`) and its owners (`OwnTask`); callbacks are attached only to futures that are not ready (`ReplayObj`) |
| C84 | `InvStall` | from C82, the checks still to come (`ThmCheck`) and the wakeups of sleeping threads (`ThmSleep`) |
| C85 | `InvRoot` | induction over the number of the state: a continuation or a combinator is newer than what it is attached to; each step from the owners (`OwnTask`), C82 and C83; C84 for the sleeping workers |
| C86 | `InvHang` | from C73 (`InvReadySeen`), C84 and C85: a registered waiter of a ready state is about to be woken by a busy thread |
| C87 | `InvHangMx` | from C20 (`InvCv`), C66 (`InvLost`) and C84: an interrupted waiter has a task in its queue, so it could go on |
| C88 | `InvRootAny`, `InvRootProm` | as C85, with the local variables of the calls in progress as further owners (`Own`, `OwnRefs`) |
| C58 | `InvThrow`, `InvReady`, `ThmStuck` | P: case analysis of the blocked operation |

## 4. Print Assumptions
Every theorem named in `MANIFEST.json` is followed by `Print Assumptions` in its
file; each reports `Closed under the global context`, i.e. no axiom at all, neither
of this development nor of the standard library.
