(** * Types: the data the library manipulates.

    Everything here is first order.  C++ closures (std::function<void()>, the
    lambdas of the library) are "defunctionalised": every lambda expression
    that occurs in /repo/threadpp is one constructor of [task] or [body] below
    whose arguments are the captured variables. *)
From Coq Require Export List Arith ZArith Lia Bool.
Export ListNotations.

(** Native thread identity, std::thread::id (thread.h:10).  The operating
    system may reuse the value once a thread has ended and was joined or
    detached; the model allows that (see [OSpawn] in Ops.v). *)
Definition tid := nat.
(** tpp::thread::id = std::uint64_t (thread.h:21).  0 is invalid_id()
    (thread.h:70-73) and caller_id() (thread.h:75-78).
    Simplification: unbounded, the 64-bit wrap of the generator is not modelled. *)
Definition id := nat.
Definition invalid_id : id := 0.
Definition caller_id : id := invalid_id.
(** Shared states (future_state objects, detail/future_state.hpp) are named by
    allocation number. *)
Definition sid := nat.

(** Exceptions that can be observed. *)
Inductive exn :=
| XUser (n : nat)      (* thrown by user code *)
| XBroken              (* future_errc::broken_promise, future.hpp:214, future_state.hpp:168 *)
| XSatisfied           (* promise_already_satisfied, future_state.hpp:48,146,182 *)
| XNoState             (* no_state, future_state.hpp:198 *)
| XRetrieved           (* future_already_retrieved, future.hpp:237 *)
| XDeadlock            (* resource_deadlock_would_occur, mutex.hpp:32 *)
| XNoLock              (* no_lock_available, mutex.hpp:67 *)
| XNotJoinable         (* std::thread::join / detach on a non joinable thread *)
| XBadIndex.           (* visit_at, when_all_any.hpp:210 *)

(** Values stored in a shared state.  User values are opaque numbers;
    [VFuts] is the vector/tuple produced by when_all, [VAny] is
    when_any_result (when_all_any.hpp:9-14); a future inside them is the shared
    state it refers to, [None] when it is not valid(). *)
Inductive val :=
| VUnit
| VNat (n : nat)
| VFuts (l : list (option sid))
| VAny (index : option nat) (l : list (option sid)).

(** std::launch as used by the library: [LAsync] is exactly std::launch::async,
    [LOther] is deferred or async|deferred (future.hpp:661 only tests equality
    with async). *)
Inductive policy := LAsync | LOther.

(** Closures.  User closures carry their name [u] and the promise objects they
    captured by move ([caps], indices in the promise table): destroying the
    closure destroys them (e.g. tests/fututre_promise_tests.cpp). *)
Inductive task :=
| TNull                                     (* empty std::function *)
| TUser (u : nat) (caps : list nat)         (* package_simple_task, thread.h:273-285 *)
| TNop                                      (* the empty lambda of notify, thread.cpp:338-340 *)
| TConfig                                   (* the lambda of set_thread_config, thread.cpp:728-734 *)
| TPack (p : sid) (b : body)                (* package_future_task, future.hpp:615-650; p is the promise *)
| TCheck (pl : nat) (lv : nat)              (* the lambda of notify_workers, thread_pool.cpp:206-209 *)
with body :=
| BUser (u : nat) (caps : list nat)         (* callable given to async / schedule *)
| BThen (par : sid) (sh : bool) (u : nat) (caps : list nat)
                                            (* lambda of then, future.hpp:731-735, 790-794, 847-851, 902-906 *)
| BTask (k : task)                          (* add_job packages the packaged task again, thread_pool.cpp:83 *)
| BAll (w i : nat) (par : sid)              (* lambda of when_all, when_all_any.hpp:163-172, 243-252 *)
| BAny (w i : nat) (par : sid).             (* lambda of when_any, when_all_any.hpp:68-83, 336-351 *)

(** The lambda stored by then with set_continuation, future.hpp:739-743. *)
Record callback := mkCb { cb_id : id; cb_pol : policy; cb_task : task }.

(** What a promise stores. *)
Inductive outcome := OVal (v : val) | OExn (e : exn).

(** value_status, future_state.hpp:11-16. *)
Inductive vstatus := SNotSet | SReady | SError.

(** std::future_status. *)
Inductive fstatus := FsReady | FsTimeout | FsDeferred.

(** Results of API calls / return register of a thread. *)
Inductive res :=
| RUnit
| RBool (b : bool)
| RId (i : id)
| RIds (l : list id)
| RInt (z : Z)
| RCv (timeout : bool)                  (* std::cv_status *)
| RFs (f : fstatus)
| RVal (v : val)
| RExn (e : exn)
| RThread (child : tid) (i : id)
| RHnd (h : nat)                        (* a future object *)
| RProm (pr : nat)                      (* a promise object *)
| RJob (h : nat) (j : nat) (sent : option nat). (* a job_future: future object, job id, sentinel *)

(** Mutexes that the library (or the user) holds across other operations.  The
    remaining mutexes (global_context.mutex, tasks_mutex, semaphore::mutex_)
    only protect leaf critical sections, modelled as one atomic operation. *)
Inductive lockid :=
| LUser (m : nat)                       (* a std::mutex owned by the user *)
| LState (p : sid)                      (* basic_state::guard, future_state.hpp:24 *)
| LWhen (w : nat)                       (* context::mutex, when_all_any.hpp:228,273,304,390 *)
| LPool (pl : nat).                     (* thread_pool::impl::guard_, thread_pool.cpp:282 *)

(** detail::semaphore objects. *)
Inductive semid :=
| SCv (n : nat)                         (* inside a user condition_variable *)
| SSt (p : sid)                         (* inside basic_state::cv *)
| SMx (m : nat).                        (* inside a tpp::mutex *)

Definition lock_eqb (a b : lockid) : bool :=
  match a, b with
  | LUser x, LUser y => x =? y
  | LState x, LState y => x =? y
  | LWhen x, LWhen y => x =? y
  | LPool x, LPool y => x =? y
  | _, _ => false
  end.
Definition sem_eqb (a b : semid) : bool :=
  match a, b with
  | SCv x, SCv y => x =? y
  | SSt x, SSt y => x =? y
  | SMx x, SMx y => x =? y
  | _, _ => false
  end.

(** priority::group (thread_pool.h:20-29); the category is its number:
    normal = 0, high = 1, critical = 2 (thread_pool.h:13-18). *)
Record group := mkGroup { g_level : nat; g_prio : nat }.
Definition group_eqb (a b : group) : bool :=
  (g_level a =? g_level b) && (g_prio a =? g_prio b).

(** Bodies of threads started by the library or the user. *)
Inductive tbody :=
| BLoop                                 (* make_thread, thread.cpp:656-671 *)
| BOnce                                 (* detached thread of async/then, future.hpp:703-709 *)
| BFun (u : nat).                       (* an arbitrary user function *)

(** The public API, one constructor per call.  Handles ([h], [pr], [o], ...)
    are the C++ objects the call is made on; results of calls that create
    objects are the numbers of the new objects. *)
Inductive api :=
(* thread.h *)
| AInit | AShutdown (d : Z)
| ARegThis | ARegThread (n : tid) | AUnregThis
| AInvoke (i : id) (u : nat) (caps : list nat)
| ADispatch (i : id) (u : nat) (caps : list nat)
| ANotify (i : id) | ANotifyExit (i : id) | ASetConfig (i : id)
| AGetAll | ACount (i : id) | AMainId | AMyId | ADepth | AIsReg | AExitQ
| AProcess | AProcessFor (d : Z) | AWait | AWaitFor (d : Z) | AWaitUntil (z : Z)
| ASleepFor (d : Z) | ASleepUntil (z : Z)
(* std::thread and tpp::thread objects *)
| AStdThread (u : nat)
| AThread (o : nat) (b : tbody) | AThJoin (o : nat) | AThDetach (o : nat)
| AThMove (dst src : nat) | AThAssign (dst src : nat) | AThSwap (a b : nat)
| AThDtor (o : nat) | AThId (o : nat)
(* std::mutex of the user, condition_variable.hpp *)
| AULock (m : nat) | AUUnlock (m : nat)
| ACvWait (c m : nat) | ACvWaitFor (c m : nat) (d : Z)
| ACvNotifyOne (c : nat) | ACvNotifyAll (c : nat)
(* mutex.hpp *)
| AMLock (m : nat) | AMTry (m : nat) | AMUnlock (m : nat)
(* future.hpp *)
| APromise (isvoid : bool) | APSet (pr : nat) (v : val) | APSetExn (pr : nat) (n : nat)
| APAbandon (pr : nat) | APGetFuture (pr : nat) | APDtor (pr : nat) | APAssign (dst src : nat)
| AFValid (h : nat) | AFReady (h : nat) | AFHasError (h : nat)
| AFWait (h : nat) | AFWaitFor (h : nat) (d : Z) | AFGet (h : nat)
| AFShare (h : nat) | AFCopy (h : nat) | AFMove (h : nat) | AFFromVal (p : sid) (sh : bool)
| AFThen (h : nat) (i : id) (pol : policy) (isvoid : bool) (u : nat) (caps : list nat)
| AFThenNew (h : nat) (pol : policy) (isvoid : bool) (u : nat) (caps : list nat)
| AAsync (i : id) (pol : policy) (isvoid : bool) (u : nat) (caps : list nat)
| AAsyncNew (pol : policy) (isvoid : bool) (u : nat) (caps : list nat)
| AMakeReady (v : val) | AMakeExn (n : nat)
(* when_all_any.hpp; vec = iterator version, otherwise the variadic one *)
| AWhenAll (hs : list nat) | AWhenAny (vec : bool) (hs : list nat)
(* thread_pool.h *)
| APool (o : nat) (levels : list (nat * nat))
| APSched (o : nat) (g : group) (isvoid : bool) (u : nat) (caps : list nat)
| APChange (o : nat) (j : nat) (g : group) | APStop (o : nat) (j : nat) | APStopAll (o : nat)
| APWait (o : nat) (j : nat) | APWaitAll (o : nat) | APCount (o : nat)
| APMove (dst src : nat) | APDestroy (o : nat)
| AJStop (sent : option nat) (owner : nat) (j : nat)
| AJChange (sent : option nat) (owner : nat) (j : nat) (g : group).

(** Ways a program can leave the defined behaviour of C++ (or of the process). *)
Inductive ub :=
| UbRelock (l : lockid)                 (* std::mutex locked again by its owner *)
| UbUnlock (l : lockid)                 (* unlock of a mutex that is not held by the caller *)
| UbDeadContext (i : id)                (* access to a destroyed thread_context *)
| UbNullContext                         (* dereference of a null local_data, thread.cpp:63-66 *)
| UbNullState                           (* dereference of an empty shared state pointer *)
| UbNullPool (o : nat)                  (* dereference of a null / dangling thread_pool::impl_ *)
| UbPrecondition                        (* documented precondition of the API violated by the caller *)
| UbTerminate.                          (* std::terminate: exception escapes a thread or a destructor *)

(** What a shared state is created for: a promise object, make_ready_future, the
    result of the user function [u] (async, then, schedule), the wrapper of a pool
    job, or the continuation a combinator [w] attaches to its input [idx].  (The
    result state of a combinator is created by [EvWhen].) *)
Inductive purpose := PuPromise | PuReady | PuFun (u : nat) | PuJob | PuHook (all : bool) (w idx : nat) (par : sid) | PuWhen (w : nat).

(** Observable events, recorded by the model in the order they happen. *)
Inductive event :=
| EvCall (t : tid) (c : api)                       (* user code on t calls c *)
| EvRet (t : tid) (c : api) (r : res)              (* the call returns (or throws, [RExn]) *)
| EvUser (t : tid) (u : nat) (a : option nat) (q : option sid) (* a user closure begins on t (argument: a future object; result bound to state q) *)
| EvUserEnd (t : tid) (u : nat) (q : option sid) (r : res) (* it returns [RVal v] or throws [RExn e] *)
| EvReg (t : tid) (n : tid) (i : id) (fresh : bool)(* registration of native n done by t gave id i *)
| EvUnreg (t : tid) (i : id)
| EvAccept (t : tid) (i : id) (k : task)           (* k appended to the queue of id i *)
| EvStart (t : tid) (i : id) (k : task)            (* native t takes k from the queue of i to run it *)
| EvDone (t : tid) (i : id)                        (* that run is over *)
| EvAbort (t : tid) (i : id)                       (* that run is over: an exception leaves it *)
| EvSleep (t : tid) (i : id)                       (* t blocks waiting for its wakeup event *)
| EvExitSet (t : tid) (i : id)                     (* exit requested for id i *)
| EvCtxGone (i : id) (ts : list task)              (* context of i destroyed with ts still queued *)
| EvDrop (t : tid) (k : task)                      (* closure k destroyed *)
| EvWaiter (t : tid) (s : semid) (i : id) (tok : nat) (fresh : bool) (* t waits on s with token tok *)
| EvUnwaiter (t : tid) (s : semid) (i : id)        (* registrations of i on s removed *)
| EvNotify (t : tid) (s : semid) (all : bool) (ws : list (id * nat)) (* waiters taken by a notification *)
| EvInterrupt (t : tid) (tok : nat)
| EvReady (t : tid) (p : sid) (o : outcome)        (* state p becomes ready *)
| EvAttach (t : tid) (p : sid) (c : callback)      (* continuation attached to p *)
| EvFire (t : tid) (p : sid) (c : callback)        (* continuation launched *)
| EvGot (t : tid) (p : sid) (r : res)              (* get_value_assuming_ready on p *)
| EvMxAcq (t : tid) (m : nat) | EvMxRel (t : tid) (m : nat) (* test_and_set won / flag cleared *)
| EvWhen (t : tid) (all : bool) (w : nat) (p : sid) (inputs : list sid)   (* when_all / when_any made combinator w with result state p *)
| EvHook (t : tid) (w idx : nat) (q : sid)         (* the continuation of input idx of combinator w, packaged with state q, takes effect *)
| EvJobAdd (t : tid) (pl j : nat) (g : group) (p q : sid)    (* job j added; user state p, pool state q *)
| EvJobRegroup (t : tid) (pl j : nat) (g : group)
| EvJobTake (t : tid) (pl j lv : nat) (g : group)  (* a worker check of level lv takes job j from its queue entry in group g *)
| EvJobSkip (t : tid) (pl lv : nat) (x : option (nat * group))  (* a check takes no job; the queue entry removed *)
| EvJobErase (t : tid) (pl : nat) (js : list nat)         (* entries removed from the job table *)
| EvJobClear (t : tid) (pl : nat) (js : list nat)  (* all jobs and queue entries removed *)
| EvJobEnd (t : tid) (pl j : nat)                  (* the worker has run the job *)
| EvThreadEnd (t : tid)
| EvSpawn (t n : tid)                              (* t starts native thread n *)
| EvLoc (t : tid) (i : option id)                  (* t attaches itself to the context of i / detaches *)
| EvLock (t : tid) (l : lockid) | EvUnlock (t : tid) (l : lockid)
| EvTick (d : Z)                                   (* the clock advances by d nanoseconds *)
| EvState (t : tid) (p : sid) (isvoid : bool) (u : purpose) (* shared state p is created *)
| EvPrm (t : tid) (pr : nat) (x : option sid)      (* promise object pr now refers to x *)
| EvHnd (t : tid) (n : nat) (sh : bool) (x : option sid) (* future object n now refers to x *)
| EvThObj (t : tid) (o : nat) (x : option tid) (i : id)  (* thread object o now owns native thread x and has id i *)
| EvPoolNew (t : tid) (o pl : nat)                 (* pool object o owns the new pool pl *)
| EvWorker (t : tid) (pl lv : nat) (n : tid) (i : id)  (* thread n, library id i, is now a worker of level lv of pl *)
| EvWorkersOut (t : tid) (pl : nat)                 (* the destructor takes the workers, to join them *)
| EvPoolMove (t : tid) (d s : nat)                  (* the pool of object s now belongs to object d *)
| EvPoolSent (t : tid) (d s : nat)                  (* and so does its sentinel; the one d had dies *)
| EvPoolKill (t : tid) (o : nat)
| EvRetr (t : tid) (p : sid) (again : bool)         (* get_future on state p; again: it was retrieved before *)
| EvInit (t : tid) (z : Z)                         (* init_count becomes z *)
| EvMain (t : tid) (i : id).                       (* main_thread_id becomes i *)
