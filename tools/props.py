# Generates /verif/properties.jsonl (single source for the property list).
import json
P=[]
def p(id,title,statement,quantifier,why,anchors):
    P.append(dict(id=id,title=title,statement=statement,quantifier=quantifier,why_tests_cant=why,anchors=anchors))
T='threadpp/thread.cpp'; TH='threadpp/thread.h'; SE='threadpp/detail/semaphore.cpp'; FS='threadpp/detail/future_state.hpp'
FU='threadpp/future.hpp'; WH='threadpp/when_all_any.hpp'; PO='threadpp/thread_pool.cpp'; POH='threadpp/thread_pool.h'; CV='threadpp/condition_variable.hpp'; MX='threadpp/mutex.hpp'
SCH='every program built from the API calls and every interleaving of its threads'
# ---- registry
p('C01','Thread ids are never reused and never invalid','Two registrations that create a thread id never create the same id, even after the first one has been unregistered, and no created id equals invalid_id().',
  'every sequence of register/unregister calls from any threads, '+SCH,'A test observes a few ids; reuse could need an arbitrarily long history or a particular race between the parent and the child registering the same native thread.',[T+':register_thread_impl',T+':unregister_thread_impl',TH+':invalid_id'])
p('C02','Registration is idempotent per native thread','While a native thread is registered, every further registration of it (by itself through register_this_thread or by anyone through register_thread / the tpp::thread constructor) returns the id it already has; at any time a native thread has at most one id and an id belongs to exactly one native thread.',
  'every interleaving of parent-side and child-side registrations','The parent and the new thread race to register the same native id; a test exercises one order per run.',[T+':register_thread_impl',T+':register_this_thread',T+':thread::register_this'])
p('C03','get_all_registered_threads is exact','The list returned contains, without duplicates, exactly the ids that have been registered and not yet unregistered at the moment of the call.',
  'every history of registrations and unregistrations and every moment of the call','Exactness at every point of every history cannot be sampled.',[T+':get_all_registered_threads',T+':unregister_thread_impl'])
p('C04','invoke reports acceptance truthfully','invoke (and dispatch to another thread) returns true exactly when the task was appended to the queue of the target id, and false with no effect on any queue when the id is invalid or not registered at the time of the call.',
  'all ids, all tasks, '+SCH,'The call races with the target unregistering itself.',[T+':invoke_packaged_task',TH+':invoke',TH+':dispatch'])
# ---- queue
p('C05','Tasks of one thread start in the order they were accepted','For each thread id, the sequence of tasks started for that id is a prefix of the sequence of tasks accepted for it, across process, process_for, wait, wait_for, sleep_for and every nested blocking call.',
  'every number of tasks, producers, nesting depth and interleaving','Order violations would show up only under particular swaps of the two internal buffers while a nested call is processing.',[T+':prepare_tasks',T+':process_one',T+':invoke_packaged_task'])
p('C06','No task is lost, duplicated or invented','At every moment the accepted tasks of a thread id are exactly its started tasks followed by its still pending tasks; in particular each accepted task starts at most once and only accepted tasks start; while the context exists nothing but a start removes a task from the queue.',
  'every history and interleaving, arbitrary nesting','Conservation must hold at every intermediate state, including in the middle of a nested wait.',[T+':prepare_tasks',T+':process_one',T+':has_tasks_to_process'])
p('C07','Thread affinity','A task accepted for thread id i is started only by the native thread that is registered as i.',
  'every schedule, every native thread id reuse','Depends on which thread holds which context after re-registration.',[T+':process_one',T+':set_local_context'])
p('C08','No lost wakeup','Whenever a registered thread is blocked inside this_thread::wait / wait_for (or any blocking call built on it) and a task is pending for it or it has been notified for exit, the thread is wakeable: its wait condition holds and its condition variable has been signalled since it went to sleep.',
  'every interleaving of producers, notify, notify_for_exit and the sleeping thread','A lost wakeup needs a notification to fall in a window of a few instructions.',[T+':wait',T+':wait_for',T+':invoke_packaged_task',T+':notify_for_exit'])
p('C09','get_pending_task_count is exact','If no task has left process_one with an exception, get_pending_task_count(i) equals the number of tasks accepted for i minus the number completed at the moment it reads; it never wraps below zero.',
  'every history, every interleaving, every nesting depth','The unsigned difference processing_tasks.size() - processing_idx must never go negative at any reachable state.',[T+':get_pending_task_count_detailed',T+':process_one'])
p('C10','A throwing task does not corrupt the pending count','After a task exits with an exception that the caller of wait/process catches, the pending count is again exact. (Violated by the code: process_one skips the decrement.)',
  'every task outcome','The unit tests never let a task throw out of process_one.',[T+':process_one'])
p('C11','dispatch to self is synchronous, to others is queued','dispatch(i,f) called on the thread registered as i runs f to completion on the calling thread before it returns and queues nothing; called on any other registered thread it behaves as invoke(i,f).',
  'all callers and targets, '+SCH,'Must hold for every combination of caller/target including re-entrant calls from inside tasks.',[TH+':dispatch',T+':notify'])
p('C12','wait blocks only when there is nothing to do','this_thread::wait goes to sleep only when the queue is empty and exit has not been requested, starts at most one task per call, and after a wakeup starts the oldest pending task if there is one.',
  'every state at call time and every wakeup reason','Depends on the race between the emptiness check and producers.',[T+':wait',T+':process_one'])
p('C13','notify_for_exit is sticky','Once notify_for_exit(i) has taken effect, notified_for_exit() on the thread registered as i returns true for ever, and the make_thread loop starts no further wait.',
  'every later history','"For ever" is not testable.',[T+':notify_for_exit',T+':notified_for_exit',T+':make_thread'])
p('C14','Joining a make_thread worker terminates','Once the context of a worker (the loop thread of make_thread, or the detached thread of async and then) has been asked to exit, the worker takes at most 12 more steps outside of tasks before its thread ends, whatever the other threads do in between; outside of tasks it is never blocked; if it has no task left to run or destroy these are all its steps. So the destructor and join of the thread return unless a task or the destructor of one does not.',
  'every reachable state and interleaving','Termination for every schedule.',[T+':make_thread',T+':thread::join',T+':thread::~thread'])
p('C15','init/shutdown nest','Only the first init and the matching last shutdown take effect; shutdown returns 0 only if no thread is registered at that moment and otherwise, after the timeout, the number of threads still registered; unmatched or nested calls return -1 and change no registration.',
  'every sequence of init/shutdown calls and every set of registered threads','Every nesting depth and every race with threads unregistering.',[T+':init',T+':shutdown'])
p('C16','sleep_for does not return early','On a registered thread sleep_for(d) returns only when at least d has elapsed on the clock or the thread has been notified for exit, whatever tasks it processes meanwhile.',
  'every duration, clock behaviour, task arrival pattern','Every wakeup pattern, including truncation to microseconds.',[TH+':sleep_for',TH+':wait_for'])
p('C17','Unregistered threads are rejected without side effect on queues','Every this_thread function called by a thread that is not registered touches no queue: wait, process and sleep return at once, get_id returns the invalid id, notified_for_exit returns true.',
  'every state','All API entry points in all states.',[T+':has_local_context',T+':notified_for_exit',T+':get_id'])
# ---- semaphore / cv / mutex
p('C18','condition_variable::notify_one selects the oldest waiter, exactly one','notify_one interrupts at most one waiting registration, and it is the one that has been waiting longest among those currently registered.',
  'every waiter set and interleaving','Fairness over every arrival order.',[SE+':notify_one',SE+':add_waiter'])
p('C19','notify_all reaches every current waiter','Every waiter registered when notify_all takes effect is interrupted and gets a wakeup task; no waiter registered later is affected by it.',
  'every waiter set and interleaving','Race between registration and notification.',[SE+':notify_all'])
p('C20','A condition variable wait is never lost','If a thread waits on a condition variable (not nested inside another wait of the same thread on the same condition variable) and a notify_all starts after the wait released the lock, the wait has been interrupted: a thread still waiting un-interrupted is always in the waiter list.',
  'every interleaving','Lost wakeups need precise timing.',[SE+':wait',SE+':remove_waiter',CV+':wait'])
p('C21','Nested waits on one condition variable do not cancel each other','A nested timed wait by the same thread on the same condition variable leaves the outer wait registered. (Violated: the nested wait shares and then removes the outer registration, so the outer wait misses every later notification.)',
  'every nesting','Needs a task that waits on the same object while the outer wait is in progress.',[SE+':add_waiter',SE+':remove_waiter'])
p('C22','A condition variable wait returns with the lock held','condition_variable::wait/wait_for that returns normally returns with the caller again owning the lock, and while it is blocked the lock is released.',
  'every interleaving','Every exit path: notified, timed out, exit requested.',[CV+':wait',CV+':wait_for',SE+':wait'])
p('C23','A condition variable wait returns only for a reason','condition_variable::wait returns normally only if its registration was interrupted by a notification or the thread was notified for exit.',
  'every interleaving','No spurious return in any schedule.',[SE+':wait'])
p('C24','Timed waits do not report timeout early','condition_variable::wait_for and future::wait_for report timeout only if the clock has advanced by more than the requested duration minus one microsecond since the call.',
  'every duration and clock behaviour','All clock readings; the code truncates to microseconds.',[SE+':wait_for_impl',T+':wait_for',FS+':wait_for'])
p('C25','tpp::mutex gives mutual exclusion','No two threads are ever both between a successful lock/try_lock and the unlock that releases it.',
  'every interleaving of lock, try_lock and unlock by registered threads','Classical safety property over all interleavings.',[MX+':lock',MX+':try_lock',MX+':unlock'])
p('C26','tpp::mutex detects misuse exactly','For registered threads, lock throws resource_deadlock_would_occur exactly when the caller already owns the mutex, and unlock throws exactly when the caller does not own it.',
  'every interleaving','The owner field is updated separately from the flag.',[MX+':lock',MX+':unlock'])
p('C27','tpp::mutex does not lose an unlock','A thread blocked in lock() while the mutex is free can always proceed. (Violated: unlock may run between the failed test_and_set and the registration as waiter.)',
  'every interleaving','A window of a few instructions.',[MX+':lock',MX+':unlock',SE+':wait'])
# ---- futures
p('C28','A shared state is satisfied exactly once','Among all set_value, set_exception, abandon and destructor actions on one promise at most one makes the state ready; every other set_value/set_exception throws promise_already_satisfied and changes nothing; the stored outcome never changes afterwards.',
  'every interleaving of setters','Concurrent setters.',[FS+':set_value',FS+':set_exception',FS+':set_ready'])
p('C29','get returns what was stored','future::get / shared_future::get that returns normally on a non-void future returns the value passed to set_value, rethrows the stored exception if one was stored, and never returns a value before the state is ready.',
  'every interleaving, any number of shared_future readers','All interleavings of producer and readers.',[FU+':get',FS+':get_value_assuming_ready'])
p('C30','future<void>::get returns normally only after set_value','(Violated: on a thread that is notified for exit or not registered future<void>::get returns normally although the promise was never satisfied.)',
  'every reachable state','Needs exit notification during the wait.',[FU+':get',FS+':wait',FS+':get_value_assuming_ready'])
p('C31','A continuation fires exactly once, after readiness, in attachment order','Every continuation attached with then is launched at most once, never before its future is ready, and once the thread that made the state ready has finished every continuation attached before readiness has been launched, in attachment order.',
  'every interleaving of then and set_value','The attach/ready race.',[FS+':set_continuation',FS+':set_ready',FU+':then'])
p('C32','get_future succeeds once','On one promise exactly one call of get_future succeeds, all others throw future_already_retrieved.',
  'every interleaving','Concurrent calls.',[FU+':get_future',FU+':check_retrieved_flag'])
p('C33','Invalid futures are rejected','After get, then, share or being moved from, a unique future is invalid; get, wait, wait_for, then and the queries of an invalid future throw no_state and change nothing, share and copying give another invalid future.',
  'every history of handle operations','All histories.',[FU+':get',FU+':then',FU+':share',FS+':check_state'])
p('C34','async delivers the outcome of its callable','The future returned by async(i,f) becomes ready only with the value returned by f, the exception thrown by f, or broken_promise if f was dropped without running; f runs at most once and, if i is another thread, only on thread i.',
  'every callable outcome and every schedule','All schedules, including the target thread exiting with the task still queued.',[FU+':async',FU+':package_future_task',FU+':launch'])
p('C35','No orphan futures','Every shared state created by async, then, schedule, when_all or when_any that is not yet ready still has a live owner that will satisfy or abandon it: a queued, attached or running task, a live promise object, or a live combinator context.',
  'every reachable state','A future nobody will ever satisfy blocks its waiter for ever; must be excluded in every state, including while queues are torn down.',[FU+':~basic_promise',FU+':package_future_task',T+':unregister_thread_impl'])
p('C36','Assigning over an unsatisfied promise abandons it','(Violated: the defaulted move assignment drops the old state without storing broken_promise, so its future never becomes ready.)',
  'every promise state','Not exercised by the tests.',[FU+':basic_promise'])
p('C37','future::wait returns only when ready or exiting','On a registered thread future::wait returns only if the state is ready or the thread was notified for exit; wait_for returns ready only if the state is ready and deferred only if the thread was notified for exit.',
  'every interleaving','All interleavings with the notifying thread.',[FS+':wait',FS+':wait_for'])
p('C38','Launch policies','With policy async the task is always queued even if the caller is the target; with any other policy it runs inline exactly when the caller is the target (or the target is caller_id()).',
  'every caller, target and policy','All combinations including unregistered callers.',[FU+':launch'])
p('C39','No user code runs under a future guard','While a thread holds the internal lock of a shared state it runs no user code and waits for no other internal lock, so no thread can be blocked for ever on it.',
  'every reachable state','Lock discipline over all states.',[FS+':set_ready',FS+':wait'])
# ---- when
p('C40','when_all becomes ready exactly when all inputs have','The future of when_all is satisfied at most once, only after every input is ready, and its i-th element refers to the state of the i-th input; it is abandoned (broken_promise) only if the continuation attached to some input has not run. Once the continuations of all inputs have run it is satisfied, or the thread that runs the last of them still holds the lock of the combinator.',
  'any number of inputs, any completion order','All completion orders and sizes.',[WH+':when_all',WH+':when_inner_helper'])
p('C41','when_any reports a ready input and returns every input','The future of when_any is satisfied at most once; unless it is abandoned (broken_promise), its index designates an input that is ready and every element of the returned sequence is valid and refers to the corresponding input. It is abandoned only if no continuation of an input has run; once one has run it is satisfied, or a thread still holds the lock of the combinator, or the call of when_any has not returned.',
  'any number of inputs, any completion order','All completion orders, including inputs completing while when_any is still attaching.',[WH+':when_any',WH+':recover_input_futures'])
p('C42','when_any continuations may block','A continuation attached to the when_any future may itself block. (Violated: it runs with the combinator mutex held; if it blocks it processes the continuation of another input on the same thread, which locks the same mutex again.)',
  'every continuation','Needs two inputs completing and a blocking continuation.',[WH+':when_any'])
p('C43','visit_at visits exactly the requested element','visit_at(t,i,f) calls f exactly once with element i when i is in range, and throws otherwise.',
  'every tuple size and index','All sizes.',[WH+':visit_at',WH+':visit_impl'])
# ---- pool
p('C44','Job ids are unique','schedule never returns the same job id twice for one pool and never returns 0.',
  'every history','All histories.',[PO+':add_job'])
p('C45','A job runs at most once','The callable of a scheduled job is taken for execution at most once, whatever change_priority, stop and stop_all calls are made.',
  'every interleaving of workers and clients','Duplicate handles are deliberately left in the queues by change_priority.',[PO+':check_jobs',PO+':change_priority'])
p('C46','A stopped job never runs','If stop(id) removed the job, it is never taken afterwards and its future becomes ready with broken_promise; if the job had already been taken, stop changes nothing.',
  'every interleaving','Race between stop and a worker.',[PO+':clear',PO+':check_jobs'])
p('C47','No job is stranded','As long as a pool has a worker of level <= the level of a job that is not exiting, and the job is neither taken nor stopped, that worker has a pending check for it; so no job stays queued with all eligible workers idle.',
  'every number of jobs, workers, priority changes and interleavings','A counting argument over all histories.',[PO+':notify_workers',PO+':check_jobs',PO+':get_highest_priority_queue_above'])
p('C48','Workers take the most urgent eligible job','A check by a worker of level p considers the highest category >= p with queued entries and in it an entry of maximal priority; it never takes a job whose current category is below p.',
  'every queue content','All contents.',[PO+':get_highest_priority_queue_above',PO+':check_jobs'])
p('C49','change_priority moves a job','After change_priority a pending job is queued at its new group; raising takes effect at once. (Lowering is violated: the old entry stays in the queue.)',
  'every queue content','All contents.',[PO+':change_priority'])
p('C50','wait(id) returns only when the job is finished','(Violated after stop_all: the running job is forgotten and wait returns immediately.) Without stop_all, on a registered non-exiting thread, wait(id) of a scheduled job returns only when its body has finished or the job was stopped.',
  'every interleaving','Race between wait, stop_all and the worker.',[PO+':wait',PO+':clear_all'])
p('C51','A job may schedule jobs','schedule may be called from a job running on the pool. (Violated: the pool locks its own mutex twice.)',
  'every caller','The tests never schedule from a worker.',[PO+':notify_workers',PO+':add_job'])
p('C52','The pool destructor leaves nothing behind','When the destructor returns every worker has ended and every job not run has been dropped, its future ready.',
  'every state at destruction','All states.',[PO+':~impl'])
p('C53','job handles outlive their pool safely','stop/change_priority through a job_future after the pool was destroyed do nothing. (Violated if the pool object was moved: the handle still points to the moved-from pool.)',
  'every history of pool moves','Not tested.',[PO+':job_future_storage::stop',POH+':thread_pool(thread_pool&&)'])
p('C54','get_jobs_count is exact','get_jobs_count equals the number of jobs scheduled and not yet finished, stopped or cleared.',
  'every history','All histories.',[PO+':get_jobs_count'])
# ---- thread object
p('C55','tpp::thread objects follow RAII','After move construction or move assignment exactly one object owns the native thread; destroying or assigning over an owning object ends the thread (notify and join) before continuing.',
  'every sequence of object operations','All sequences.',[T+':thread::operator=',T+':thread::~thread',T+':thread::swap'])
p('C56','Context memory safety','As long as no thread unregisters itself from inside a task it is processing, no operation ever touches a destroyed thread context, whatever races between invoke / notify_for_exit / get_pending_task_count and unregistering. (Violated: unregister_this_thread destroys the queue before it clears local_data; a broken promise in the queue launches its continuations, and launch reads the id of the destroyed context.)',
  'every interleaving','Use-after-free races.',[T+':unregister_thread_impl',T+':invoke_packaged_task',T+':notify_for_exit'])
p('C57','tpp::mutex tells unregistered threads apart','Two threads that are not registered never both own one tpp::mutex. (Violated: the owner is recorded as this_thread::get_id(), which is the same invalid id for all of them, so one unregistered thread can unlock the mutex of another.)',
  'every interleaving of lock, try_lock and unlock by unregistered threads','Not tested.',[MX+':lock',MX+':unlock',T+':get_id'])
p('C58','No thread is stuck without a reason','Whenever a thread that has not ended cannot take a step, it waits for one of four things: a mutex held by another thread, a task or exit request for its own context (or the deadline), the end of the native thread it joins, or the other contexts during shutdown (or the deadline). As soon as that reason has gone, the thread can take a step. In particular no exception is ever in flight without a handler below it, and no call loses its place to return to.',
  'every reachable state of every program using the library, every thread','A stuck thread shows only as a hang, and only in the interleaving that causes it.',[T+':wait_for',T+':shutdown',T+':join',FS+':wait'])
p('C59','A destroyed context is touched only by its own thread','Whenever the next operation of a thread would read or write a destroyed thread context, the context belonged to that same thread, and the thread either removed its registration while it was running one of its own tasks or is still inside unregister_this_thread. No race between two threads leads to an access to a destroyed context.',
  'every reachable state of every program using the library, every thread and context','A use after free between threads needs an exact interleaving of look-up, unregistering and destruction.',[T+':unregister_this_thread',T+':invoke',T+':notify_for_exit',T+':get_id'])
p('C60','make_ready_future, when_all and when_any do what they say','make_ready_future and make_exceptional_future create one state, satisfy it once with the given outcome and return a future for it; so do when_all and when_any of nothing. Otherwise when_all / when_any make one combinator for exactly the states the given futures refer to at that moment, attach one continuation to each of them and return a future for the result of the combinator; none of these calls ends with an exception.',
  'every call of these functions in every reachable history, every number of inputs, whatever other threads do meanwhile','Every number of inputs and every interleaving with the threads that satisfy them.',[WH+':when_all',WH+':when_any',FU+':make_ready_future',FU+':make_exceptional_future'])
p('C61','Every exception that leaves a call is explained','Whenever a call of the library ends with an exception, the exception was thrown by a function given to invoke or dispatch that the calling thread ran inside this call, and the call is one that processes tasks or dispatches; or it is one of the errors the library documents for this call: not joinable, deadlock, no lock held, no state, already satisfied, already retrieved, or for get the error stored in the future. Exceptions of functions given to async, then, schedule or make_thread and of continuations never leave a call.',
  'every call in every reachable history, whatever user code throws','Every nesting of tasks, waits and continuations through which an exception may travel.',[T+':process',T+':dispatch',FU+':get',MX+':lock',PO+':add_job'])
p('C62','Undefined behaviour is preceded by a misuse','Whenever the next operation of a thread releases a mutex it does not hold, uses a future without state, calls into a pool object without a pool, uses the context of a thread that has none, or violates a precondition of the standard library, the thread is inside a call of the library whose documented precondition is violated: it releases a mutex of the user that the thread does not hold; it is get and the future was consumed while get waited; it is a call on a pool object that was empty at some moment of the call; it is set_thread_config for the invalid id on a thread that is not registered; or it constructs an object in use, copies a unique future, shares a shared one, assigns to a promise that does not exist, combines a future without state, builds a pool from levels out of order, or processes tasks one of which attached the thread to another id. The internal mutexes of the library are never released by a thread that does not hold them.',
  'every reachable state of every program using the library, every thread','Undefined behaviour need not show in a test.',[CV+':wait',FU+':get',PO+':add_job',WH+':when_all',T+':process'])
p('C63','std::terminate is called only for one of three reasons','Whenever the next operation of a thread calls std::terminate, either a function that does not belong to a future has thrown on this thread and the thread is not inside any call of the library that could pass the exception on; or the thread is destroying a promise whose state another thread has satisfied between the test and the setting done by the destructor; or it is destroying or assigning over a thread object that had a thread at the start of this and has lost it during the call. No other exception ever meets a destructor or the end of a thread.',
  'every reachable state of every program using the library, every thread','A process that terminates in a race needs an exact interleaving.',[T+':thread::~thread',T+':thread::operator=',FU+':~basic_promise',T+':make_thread'])
p('C64','A mutex is locked by its holder only for a reason','Whenever the next operation of a thread locks a mutex that this thread holds already, one of these has happened. For a mutex of the user, the thread is in the call of the user that locks it, or in a condition variable wait on it. For the mutex of a future state, the thread has destroyed, since it took the mutex, a task found in the queue of a thread that is gone. For the mutex of a combinator, the thread has launched a continuation or destroyed a function given to the library since it took the mutex. For the mutex of a pool, the thread is a worker of that pool, or it has destroyed a function given to the library since it took the mutex. Every state with undefined behaviour is reached by a step of one thread that leaves the trace as it is, so this and C62 and C63 apply to it.',
  'every reachable state of every program using the library, every thread and every mutex','Self deadlock needs a rare nesting of calls; a test sees a hang at most.',[FS+':set_value',WH+':when_any',PO+':add_job',CV+':wait'])
p('C65','Every undefined behaviour has a cause','In every execution of every program, whatever the kind of the undefined behaviour the library runs into, the trace before it shows a cause given by the program: the misuse of C62, the relocking of C64, the termination of C63, or, for a destroyed context, that the thread left the library from inside a task or is inside unregister_this_thread. So an execution whose trace shows none of these causes is free of undefined behaviour.',
  'every reachable state of every program using the library, every thread and every kind of undefined behaviour','Absence of undefined behaviour cannot be tested; a sanitizer sees the schedules it is given.',[T+':unregister_this_thread',FS+':set_value',FU+':get',PO+':add_job'])
p('C66','An unlock is lost only between an attempt and the registration','A thread registers as a waiter of a tpp::mutex only inside lock, after an attempt that found the mutex taken, and does nothing in between. An unlock after the registration is never lost: as long as the waiter is neither interrupted nor withdrawn, some thread is on its way to wake it. So if a waiter sleeps while the mutex is free and nobody is on the way to wake it, an unlock happened between its attempt and its registration, and the mutex has not been used since.',
  'every reachable state of every program using the library, every mutex and every waiter','Which unlocks can be lost depends on the order of steps in two threads; a test that does not hang shows nothing.',[MX+':lock',MX+':unlock',SE+':wait',SE+':notify_all'])
p('C67','Job handles of pools that are not moved','Let a handle returned by schedule be used for stop or change_priority, and let its pool object never be moved. If the pool was destroyed after the handle was made and before the call, the call returns without doing anything. If the pool is there during the whole call, the call works on that pool as the method of the pool does. A null implementation is dereferenced only if the pool is destroyed during the call.',
  'every reachable state of every program using the library, every handle and every history of pools and threads','The handle checks the sentinel and uses the pool in two steps; the outcomes depend on what other threads do in between.',[PO+':job_future_storage::stop',PO+':job_future_storage::change_priority',POH+':sentinel_'])
p('C68','After wait and wait_all the functions of the jobs are over','When the pool future of a job becomes ready, or the job is removed from the table by its worker or by stop, the function of the job has returned or thrown, or it never begins. So when wait or wait_all returns normally, the function of every job waited for that was added before the call is over, unless the waiting thread was not registered or was told to exit during the call, or stop_all or the destruction of the pool removed the job while it was being executed.',
  'every reachable history, every call of wait and wait_all, every job and every number of workers','That a function never runs after the wait cannot be seen in a test that happens to be fast enough.',[PO+':wait',PO+':wait_all',PO+':add_job',PO+':stop'])
p('C69','get of a shared_future leaves the value in place','Every read of the value of a state by get either goes through a shared_future, or the thread has just emptied a unique future object that referred to the state. The value of a state is moved out only by the latter: as long as nobody calls get on a unique future of the state, every shared_future finds the value as it was stored.',
  'every reachable state of every program using the library, every state and every future object','Whether a value was moved from is visible only for some types of values.',[FU+':get',FU+':share',FS+':get_value_assuming_ready'])
p('C70','Jobs are taken out of order only after they were lowered','When a worker takes a job, it takes it for a group that the job was given when it was scheduled or by change_priority, and this group is at least as urgent as the present group of every waiting job that this worker may take. So raising a job always takes effect, and a job that was never lowered is never taken before a more urgent one.',
  'every reachable history, every pool, every number of workers and jobs and every sequence of changes','Every sequence of schedule, change_priority, stop and checks by several workers.',[PO+':change_priority',PO+':check_jobs',PO+':add_job_handle'])
p('C71','The internal mutexes alone never make a deadlock','A thread that holds a mutex of the library (of a future state, of a combinator or of a pool) can always make a step, unless under this mutex it has destroyed a function given to the library or, in a combinator, launched a continuation. The only other exception is a thread in a combinator that waits for the mutex of a future state held by another thread, and then that thread can make a step or has destroyed a task of a thread that is gone. So, without such destructions and launches, whenever an internal mutex is held, the holder of one of them can make a step.',
  'every reachable state of every program using the library, every thread and every internal mutex','A deadlock between internal mutexes needs an exact interleaving of several threads.',[FS+':set_value',WH+':when_any',PO+':add_job',PO+':check_jobs'])
p('C72','Workers start every task they were given','Let a thread made by make_thread be in its loop between two tasks, let it stay attached to its context and let nobody ask it to exit. Then, whatever it and the other threads do, either all tasks accepted before have been started in the order of acceptance, or it has taken at most three steps between tasks for each of them and is able to take a step whenever it is between two tasks. So no accepted task waits for ever unless a task before it never ends.',
  'every reachable state of every program, every continuation of the execution of any length, every number of tasks','Starvation is a statement about all continuations of an execution.',[T+':wait',T+':process_one',T+':make_thread'])
p('C73','A waiting thread does not miss that a future becomes ready','A thread registers as waiter of a future state only while the state is not ready and the thread holds the mutex of the state. Once the state is ready, a registered waiter that was not taken off the list and not interrupted is about to be interrupted by the thread that completed the state; and a waiter that sleeps is about to be interrupted, has a task to wake it, or a thread is about to queue one.',
  'every reachable state of every program using the library, every waiter of every state','A lost wakeup needs an exact interleaving of the waiting and the completing thread.',[FS+':wait',FS+':set_value',SE+':wait',SE+':notify_all'])
p('C74','Nested waits for one future do not cancel each other','When a thread that waits for a future runs a task which waits for the same future, and this inner wait ends by its time limit, the outer wait still returns when the future becomes ready.',
  'every nesting of waits for futures on one thread','Needs a task that waits for the same future with a limit while the outer wait is in progress.',[FS+':wait_for',SE+':remove_waiter'])
CAP='threadpp/detail/utility/capture.hpp'; APP='threadpp/detail/utility/apply.hpp'
p('C75','The callable and the arguments of a task reach the callee','Capturing a callable and its arguments takes the values the variables have, empties the variables given up by std::move and leaves all others alone. However often the task is copied or moved afterwards, a call of the copy that the chain of copies leads to passes the captured values to the callee in the order given, and references for reference wrappers. All other copies hold no value, so no value is delivered twice.',
  'every number and kind of arguments, every sequence of copies, moves, calls and destructions of the task','Tasks pass through several copies on their way; a test sees the copies that one path makes.',[CAP+':move_on_copy_t',CAP+':capture',APP+':apply',TH+':package_simple_task',FU+':package_future_task'])
p('C76','A waiting job is not passed over for ever','As long as a job waits in a group, every check of the queue by a worker that may take it uses up a queue entry at least as urgent as this group. So the number of such checks is less than the number of these entries at the beginning plus the number of jobs scheduled for, or raised to, such a group meanwhile. And a worker of the category of the job or a lower one, which stays attached and is not asked to exit, has checked the queue, or is about to, when it has started the tasks accepted for it so far, which it does by C72. So a job is taken unless more urgent jobs keep coming for ever or the functions of all workers never end.',
  'every reachable history, every pool, every number of workers and jobs, every continuation','Starvation is a statement about executions of any length.',[PO+':check_jobs',PO+':change_priority',PO+':add_job',T+':process_one'])
p('C77','A function sent to a thread gets its result when the thread is back in its loop','Once a thread has started the closure of a packaged function (async or then), the shared state of the function is ready, or this same thread still runs the function or is storing its outcome. So when the thread is back in its loop the future is ready. And a function accepted for a worker that stays attached and is not asked to exit is ready when the worker is back in its loop, or the worker has made only a bounded number of steps between tasks and can go on.',
  'every reachable history, thread and packaged function, every execution in which the worker stays attached and is not asked to exit','That no path through the task runner loses a result depends on all interleavings of the worker with setters, waiters and nested task processing.',[FU+':package_future_task',FU+':apply_and_forward_as',T+':process_one'])
p('C78','wait_until does not report a timeout early','wait_until of condition_variable and of futures reads the clock and calls wait_for with the difference. However much time passes between the two, a timeout is reported only when the point in time has come, up to the microsecond wait_for cuts off.',
  'every reachable history, every point in time, every delay between reading the clock and waiting','A test sees the timing of one schedule only.',[CV+':wait_until',FU+':wait_until'])
p('C79','The members that are not atomic are accessed without data races','Two threads are never about to access the same plain member (value, exception and callbacks of a future state, the flags and the collected futures of a combinator, the jobs and workers of a pool, the id of the main thread) at the same time when one of them writes it.',
  'for all executions, all pairs of threads and all these members','a data race has no defined effect and may stay invisible in every test run',[FS+':rethrow_any_exception',FS+':exception',T+':main_thread_id',PO+':mutex'])
p('C80','The futures of when_all and when_any get their results when the thread is back in its loop','When one thread has started the continuations of all inputs of a when_all and is back in its loop, the future made by when_all is ready. For when_any one continuation is enough if no other thread ran one and it was the calling thread. When the continuations were accepted for a worker that stays attached and is not asked to exit, then whenever the worker is back in its loop the future is ready, or the worker has made only a bounded number of steps between tasks and can go on.',
  'every reachable history, every number of inputs, every execution in which the worker stays attached and is not asked to exit','The last continuation and the call itself can meet in any order on the mutex of the combinator; that one of them always stores the result is a statement about all interleavings.',[WH+':when_all',WH+':when_any',T+':process_one'])
p('C81','A job that a worker took has its result when the worker is back in its loop','When a worker has taken a job from the queue, then its future is ready or this worker is at work on the job. So the future, and the one that wait looks at, is ready whenever the worker is back in its loop, and when its thread has ended, whatever the function of the job did and also when the pool was destroyed meanwhile.',
  'every reachable history, every pool, every job and every worker','The job may throw, call into the library or run while the pool is cleared and destroyed; a test can sample only few of these interleavings.',[PO+':check',POH+':schedule',FU+':packaged_task'])
p('C82','No job and no function is lost','When no thread is busy inside the library (every thread runs its own function outside of calls, is in its loop between two tasks, waits in a call, or has ended), every job that was ever scheduled waits in its pool, or its future and the one that wait looks at are ready. Every function given to async, then or schedule has its result, or its closure waits in the queue of a context that exists, at a future, or in the table of a pool.',
  'every reachable state in which no thread is busy inside the library, every job and every function','A closure can get lost on any path through the queues, the stop calls, the destructors and the exits of threads; that none loses one is a statement about all paths.',[PO+':check',PO+':stop',POH+':schedule',T+':process_one',FU+':package_future_task'])
p('C83','No combinator is lost','When no thread is busy inside the library, the future made by when_all or when_any is ready, or a closure that refers to the combinator waits in the queue of a context that exists, or the continuation of an input is still attached to this input and the input is not ready. So the future of a when_all is ready when all inputs are and the queues are empty.',
  'every reachable state in which no thread is busy inside the library, every combinator and every number of inputs','The combinator is kept alive only by the references of its continuations; that none of them is dropped on some path is a statement about all interleavings.',[WH+':when_all',WH+':when_any',FS+':callbacks'])
p('C84','Why nothing moves','No thread is busy inside the library and a worker of a pool sleeps in its loop and cannot go on. Then every job of the pool without result waits in the pool, and its category is too low for this worker. A worker that may take a waiting job has a check of the pool in its queue. A thread that sleeps for good has an empty queue and was not asked to exit. A function given to async, then or schedule that has no result is attached to a future that is not ready, is in the table of a pool, or is in the queue of a context in which no thread sleeps for good.',
  'every reachable state in which no thread is busy inside the library, every pool, job, worker and function','A hang shows only as a test that does not end; the statement gives its cause for every state in which nothing moves.',[PO+':check_jobs',POH+':schedule',T+':wait',FS+':callbacks'])

p('C85','The cause of a future without result','When no thread is busy inside the library, every future without result depends, through a chain of attached continuations and combinators, on a promise of the user that has not been set, on a job that waits in its pool, or on a closure in the queue of a context that exists. If every context that exists has a thread that sleeps for good, it depends on such a promise or on a waiting job whose category is too low for the sleeping workers of its pool. The chain leads to older states only, so futures never wait for each other in a circle.',
  'every reachable state in which no thread is busy inside the library, every future and every length of the chain','Chains of continuations and combinators have any length, and a future that is forgotten shows only as a test that does not end.',[FU+':then',WH+':when_all',WH+':when_any',FS+':callbacks',PO+':check_jobs'])

p('C86','Why a wait for a future does not return','No thread is busy inside the library, and a thread sleeps in a wait for a future and cannot go on. Then its registration as waiter was removed by another wait for the same future inside a task that it ran meanwhile (see C74), or the future has no result and depends, through continuations and combinators, on a promise of the user that has not been set, on a job that waits in its pool, or on a closure in the queue of a context. If every context sleeps for good, it is such a promise or a job whose category is too low for the sleeping workers of its pool.',
  'every reachable state in which no thread is busy inside the library, every waiting thread and every future','A hang shows only as a test that does not end; the statement lists all its causes, for every interleaving.',[FS+':callbacks',CV+':wait',FU+':then',WH+':when_all',PO+':check_jobs'])

p('C87','Why a thread does not come back from a mutex or a condition variable','No thread is about to wake up others, and a thread sleeps in lock of a tpp::mutex and cannot go on. Then the mutex is taken, or the registration of the thread was removed by a lock inside this lock, or the mutex was released between its attempt and its registration and nobody has used it since. A thread that sleeps at a condition variable and cannot go on is registered, nobody has notified all since it registered and no notification was for it, or its registration was removed by a wait inside this wait.',
  'every reachable state in which no thread is about to wake up others, every waiting thread, mutex and condition variable','A hang shows only as a test that does not end; the statement lists all its causes, for every interleaving.',[MX+':lock',MX+':unlock',CV+':wait',CV+':notify_all'])

p('C88','The cause of a future without result, at any moment','At any moment, every future without result depends, through a chain of attached continuations and combinators, on a promise of the user, on a closure in the table of a pool or in the queue of a context, or on a call in progress on some thread, which holds the closure, sets the result or works on the combinator. So a thread that hangs in a wait for a future while no thread is about to wake up others hangs for one of these reasons, or its registration was removed by a wait inside the wait. A promise of the user without result is still referred to by a promise object or a call in progress, or its promise object was assigned another promise.',
  'every reachable state, every future, every length of the chain and every waiting thread','Chains of continuations and combinators have any length, and a future that is forgotten on one interleaving shows only as a test that does not end.',[FU+':then',WH+':when_all',WH+':when_any',FS+':callbacks',PO+':check_jobs'])

open('/verif/properties.jsonl','w').write(''.join(json.dumps(x)+'\n' for x in P))
print(len(P))
