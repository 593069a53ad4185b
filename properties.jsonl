{"id": "C01", "title": "Thread ids are never reused and never invalid", "statement": "Two registrations that create a thread id never create the same id, even after the first one has been unregistered, and no created id equals invalid_id().", "quantifier": "every sequence of register/unregister calls from any threads, every program built from the API calls and every interleaving of its threads", "why_tests_cant": "A test observes a few ids; reuse could need an arbitrarily long history or a particular race between the parent and the child registering the same native thread.", "anchors": ["threadpp/thread.cpp:register_thread_impl", "threadpp/thread.cpp:unregister_thread_impl", "threadpp/thread.h:invalid_id"]}
{"id": "C02", "title": "Registration is idempotent per native thread", "statement": "While a native thread is registered, every further registration of it (by itself through register_this_thread or by anyone through register_thread / the tpp::thread constructor) returns the id it already has; at any time a native thread has at most one id and an id belongs to exactly one native thread.", "quantifier": "every interleaving of parent-side and child-side registrations", "why_tests_cant": "The parent and the new thread race to register the same native id; a test exercises one order per run.", "anchors": ["threadpp/thread.cpp:register_thread_impl", "threadpp/thread.cpp:register_this_thread", "threadpp/thread.cpp:thread::register_this"]}
{"id": "C03", "title": "get_all_registered_threads is exact", "statement": "The list returned contains, without duplicates, exactly the ids that have been registered and not yet unregistered at the moment of the call.", "quantifier": "every history of registrations and unregistrations and every moment of the call", "why_tests_cant": "Exactness at every point of every history cannot be sampled.", "anchors": ["threadpp/thread.cpp:get_all_registered_threads", "threadpp/thread.cpp:unregister_thread_impl"]}
{"id": "C04", "title": "invoke reports acceptance truthfully", "statement": "invoke (and dispatch to another thread) returns true exactly when the task was appended to the queue of the target id, and false with no effect on any queue when the id is invalid or not registered at the time of the call.", "quantifier": "all ids, all tasks, every program built from the API calls and every interleaving of its threads", "why_tests_cant": "The call races with the target unregistering itself.", "anchors": ["threadpp/thread.cpp:invoke_packaged_task", "threadpp/thread.h:invoke", "threadpp/thread.h:dispatch"]}
{"id": "C05", "title": "Tasks of one thread start in the order they were accepted", "statement": "For each thread id, the sequence of tasks started for that id is a prefix of the sequence of tasks accepted for it, across process, process_for, wait, wait_for, sleep_for and every nested blocking call.", "quantifier": "every number of tasks, producers, nesting depth and interleaving", "why_tests_cant": "Order violations would show up only under particular swaps of the two internal buffers while a nested call is processing.", "anchors": ["threadpp/thread.cpp:prepare_tasks", "threadpp/thread.cpp:process_one", "threadpp/thread.cpp:invoke_packaged_task"]}
{"id": "C06", "title": "No task is lost, duplicated or invented", "statement": "At every moment the accepted tasks of a thread id are exactly its started tasks followed by its still pending tasks; in particular each accepted task starts at most once and only accepted tasks start; while the context exists nothing but a start removes a task from the queue.", "quantifier": "every history and interleaving, arbitrary nesting", "why_tests_cant": "Conservation must hold at every intermediate state, including in the middle of a nested wait.", "anchors": ["threadpp/thread.cpp:prepare_tasks", "threadpp/thread.cpp:process_one", "threadpp/thread.cpp:has_tasks_to_process"]}
{"id": "C07", "title": "Thread affinity", "statement": "A task accepted for thread id i is started only by the native thread that is registered as i.", "quantifier": "every schedule, every native thread id reuse", "why_tests_cant": "Depends on which thread holds which context after re-registration.", "anchors": ["threadpp/thread.cpp:process_one", "threadpp/thread.cpp:set_local_context"]}
{"id": "C08", "title": "No lost wakeup", "statement": "Whenever a registered thread is blocked inside this_thread::wait / wait_for (or any blocking call built on it) and a task is pending for it or it has been notified for exit, the thread is wakeable: its wait condition holds and its condition variable has been signalled since it went to sleep.", "quantifier": "every interleaving of producers, notify, notify_for_exit and the sleeping thread", "why_tests_cant": "A lost wakeup needs a notification to fall in a window of a few instructions.", "anchors": ["threadpp/thread.cpp:wait", "threadpp/thread.cpp:wait_for", "threadpp/thread.cpp:invoke_packaged_task", "threadpp/thread.cpp:notify_for_exit"]}
{"id": "C09", "title": "get_pending_task_count is exact", "statement": "If no task has left process_one with an exception, get_pending_task_count(i) equals the number of tasks accepted for i minus the number completed at the moment it reads; it never wraps below zero.", "quantifier": "every history, every interleaving, every nesting depth", "why_tests_cant": "The unsigned difference processing_tasks.size() - processing_idx must never go negative at any reachable state.", "anchors": ["threadpp/thread.cpp:get_pending_task_count_detailed", "threadpp/thread.cpp:process_one"]}
{"id": "C10", "title": "A throwing task does not corrupt the pending count", "statement": "After a task exits with an exception that the caller of wait/process catches, the pending count is again exact. (Violated by the code: process_one skips the decrement.)", "quantifier": "every task outcome", "why_tests_cant": "The unit tests never let a task throw out of process_one.", "anchors": ["threadpp/thread.cpp:process_one"]}
{"id": "C11", "title": "dispatch to self is synchronous, to others is queued", "statement": "dispatch(i,f) called on the thread registered as i runs f to completion on the calling thread before it returns and queues nothing; called on any other registered thread it behaves as invoke(i,f).", "quantifier": "all callers and targets, every program built from the API calls and every interleaving of its threads", "why_tests_cant": "Must hold for every combination of caller/target including re-entrant calls from inside tasks.", "anchors": ["threadpp/thread.h:dispatch", "threadpp/thread.cpp:notify"]}
{"id": "C12", "title": "wait blocks only when there is nothing to do", "statement": "this_thread::wait goes to sleep only when the queue is empty and exit has not been requested, starts at most one task per call, and after a wakeup starts the oldest pending task if there is one.", "quantifier": "every state at call time and every wakeup reason", "why_tests_cant": "Depends on the race between the emptiness check and producers.", "anchors": ["threadpp/thread.cpp:wait", "threadpp/thread.cpp:process_one"]}
{"id": "C13", "title": "notify_for_exit is sticky", "statement": "Once notify_for_exit(i) has taken effect, notified_for_exit() on the thread registered as i returns true for ever, and the make_thread loop starts no further wait.", "quantifier": "every later history", "why_tests_cant": "\"For ever\" is not testable.", "anchors": ["threadpp/thread.cpp:notify_for_exit", "threadpp/thread.cpp:notified_for_exit", "threadpp/thread.cpp:make_thread"]}
{"id": "C14", "title": "Joining a make_thread worker terminates", "statement": "Once the context of a worker (the loop thread of make_thread, or the detached thread of async and then) has been asked to exit, the worker takes at most 12 more steps outside of tasks before its thread ends, whatever the other threads do in between; outside of tasks it is never blocked; if it has no task left to run or destroy these are all its steps. So the destructor and join of the thread return unless a task or the destructor of one does not.", "quantifier": "every reachable state and interleaving", "why_tests_cant": "Termination for every schedule.", "anchors": ["threadpp/thread.cpp:make_thread", "threadpp/thread.cpp:thread::join", "threadpp/thread.cpp:thread::~thread"]}
{"id": "C15", "title": "init/shutdown nest", "statement": "Only the first init and the matching last shutdown take effect; shutdown returns 0 only if no thread is registered at that moment and otherwise, after the timeout, the number of threads still registered; unmatched or nested calls return -1 and change no registration.", "quantifier": "every sequence of init/shutdown calls and every set of registered threads", "why_tests_cant": "Every nesting depth and every race with threads unregistering.", "anchors": ["threadpp/thread.cpp:init", "threadpp/thread.cpp:shutdown"]}
{"id": "C16", "title": "sleep_for does not return early", "statement": "On a registered thread sleep_for(d) returns only when at least d has elapsed on the clock or the thread has been notified for exit, whatever tasks it processes meanwhile.", "quantifier": "every duration, clock behaviour, task arrival pattern", "why_tests_cant": "Every wakeup pattern, including truncation to microseconds.", "anchors": ["threadpp/thread.h:sleep_for", "threadpp/thread.h:wait_for"]}
{"id": "C17", "title": "Unregistered threads are rejected without side effect on queues", "statement": "Every this_thread function called by a thread that is not registered touches no queue: wait, process and sleep return at once, get_id returns the invalid id, notified_for_exit returns true.", "quantifier": "every state", "why_tests_cant": "All API entry points in all states.", "anchors": ["threadpp/thread.cpp:has_local_context", "threadpp/thread.cpp:notified_for_exit", "threadpp/thread.cpp:get_id"]}
{"id": "C18", "title": "condition_variable::notify_one selects the oldest waiter, exactly one", "statement": "notify_one interrupts at most one waiting registration, and it is the one that has been waiting longest among those currently registered.", "quantifier": "every waiter set and interleaving", "why_tests_cant": "Fairness over every arrival order.", "anchors": ["threadpp/detail/semaphore.cpp:notify_one", "threadpp/detail/semaphore.cpp:add_waiter"]}
{"id": "C19", "title": "notify_all reaches every current waiter", "statement": "Every waiter registered when notify_all takes effect is interrupted and gets a wakeup task; no waiter registered later is affected by it.", "quantifier": "every waiter set and interleaving", "why_tests_cant": "Race between registration and notification.", "anchors": ["threadpp/detail/semaphore.cpp:notify_all"]}
{"id": "C20", "title": "A condition variable wait is never lost", "statement": "If a thread waits on a condition variable (not nested inside another wait of the same thread on the same condition variable) and a notify_all starts after the wait released the lock, the wait has been interrupted: a thread still waiting un-interrupted is always in the waiter list.", "quantifier": "every interleaving", "why_tests_cant": "Lost wakeups need precise timing.", "anchors": ["threadpp/detail/semaphore.cpp:wait", "threadpp/detail/semaphore.cpp:remove_waiter", "threadpp/condition_variable.hpp:wait"]}
{"id": "C21", "title": "Nested waits on one condition variable do not cancel each other", "statement": "A nested timed wait by the same thread on the same condition variable leaves the outer wait registered. (Violated: the nested wait shares and then removes the outer registration, so the outer wait misses every later notification.)", "quantifier": "every nesting", "why_tests_cant": "Needs a task that waits on the same object while the outer wait is in progress.", "anchors": ["threadpp/detail/semaphore.cpp:add_waiter", "threadpp/detail/semaphore.cpp:remove_waiter"]}
{"id": "C22", "title": "A condition variable wait returns with the lock held", "statement": "condition_variable::wait/wait_for that returns normally returns with the caller again owning the lock, and while it is blocked the lock is released.", "quantifier": "every interleaving", "why_tests_cant": "Every exit path: notified, timed out, exit requested.", "anchors": ["threadpp/condition_variable.hpp:wait", "threadpp/condition_variable.hpp:wait_for", "threadpp/detail/semaphore.cpp:wait"]}
{"id": "C23", "title": "A condition variable wait returns only for a reason", "statement": "condition_variable::wait returns normally only if its registration was interrupted by a notification or the thread was notified for exit.", "quantifier": "every interleaving", "why_tests_cant": "No spurious return in any schedule.", "anchors": ["threadpp/detail/semaphore.cpp:wait"]}
{"id": "C24", "title": "Timed waits do not report timeout early", "statement": "condition_variable::wait_for and future::wait_for report timeout only if the clock has advanced by more than the requested duration minus one microsecond since the call.", "quantifier": "every duration and clock behaviour", "why_tests_cant": "All clock readings; the code truncates to microseconds.", "anchors": ["threadpp/detail/semaphore.cpp:wait_for_impl", "threadpp/thread.cpp:wait_for", "threadpp/detail/future_state.hpp:wait_for"]}
{"id": "C25", "title": "tpp::mutex gives mutual exclusion", "statement": "No two threads are ever both between a successful lock/try_lock and the unlock that releases it.", "quantifier": "every interleaving of lock, try_lock and unlock by registered threads", "why_tests_cant": "Classical safety property over all interleavings.", "anchors": ["threadpp/mutex.hpp:lock", "threadpp/mutex.hpp:try_lock", "threadpp/mutex.hpp:unlock"]}
{"id": "C26", "title": "tpp::mutex detects misuse exactly", "statement": "For registered threads, lock throws resource_deadlock_would_occur exactly when the caller already owns the mutex, and unlock throws exactly when the caller does not own it.", "quantifier": "every interleaving", "why_tests_cant": "The owner field is updated separately from the flag.", "anchors": ["threadpp/mutex.hpp:lock", "threadpp/mutex.hpp:unlock"]}
{"id": "C27", "title": "tpp::mutex does not lose an unlock", "statement": "A thread blocked in lock() while the mutex is free can always proceed. (Violated: unlock may run between the failed test_and_set and the registration as waiter.)", "quantifier": "every interleaving", "why_tests_cant": "A window of a few instructions.", "anchors": ["threadpp/mutex.hpp:lock", "threadpp/mutex.hpp:unlock", "threadpp/detail/semaphore.cpp:wait"]}
{"id": "C28", "title": "A shared state is satisfied exactly once", "statement": "Among all set_value, set_exception, abandon and destructor actions on one promise at most one makes the state ready; every other set_value/set_exception throws promise_already_satisfied and changes nothing; the stored outcome never changes afterwards.", "quantifier": "every interleaving of setters", "why_tests_cant": "Concurrent setters.", "anchors": ["threadpp/detail/future_state.hpp:set_value", "threadpp/detail/future_state.hpp:set_exception", "threadpp/detail/future_state.hpp:set_ready"]}
{"id": "C29", "title": "get returns what was stored", "statement": "future::get / shared_future::get that returns normally on a non-void future returns the value passed to set_value, rethrows the stored exception if one was stored, and never returns a value before the state is ready.", "quantifier": "every interleaving, any number of shared_future readers", "why_tests_cant": "All interleavings of producer and readers.", "anchors": ["threadpp/future.hpp:get", "threadpp/detail/future_state.hpp:get_value_assuming_ready"]}
{"id": "C30", "title": "future<void>::get returns normally only after set_value", "statement": "(Violated: on a thread that is notified for exit or not registered future<void>::get returns normally although the promise was never satisfied.)", "quantifier": "every reachable state", "why_tests_cant": "Needs exit notification during the wait.", "anchors": ["threadpp/future.hpp:get", "threadpp/detail/future_state.hpp:wait", "threadpp/detail/future_state.hpp:get_value_assuming_ready"]}
{"id": "C31", "title": "A continuation fires exactly once, after readiness, in attachment order", "statement": "Every continuation attached with then is launched at most once, never before its future is ready, and once the thread that made the state ready has finished every continuation attached before readiness has been launched, in attachment order.", "quantifier": "every interleaving of then and set_value", "why_tests_cant": "The attach/ready race.", "anchors": ["threadpp/detail/future_state.hpp:set_continuation", "threadpp/detail/future_state.hpp:set_ready", "threadpp/future.hpp:then"]}
{"id": "C32", "title": "get_future succeeds once", "statement": "On one promise exactly one call of get_future succeeds, all others throw future_already_retrieved.", "quantifier": "every interleaving", "why_tests_cant": "Concurrent calls.", "anchors": ["threadpp/future.hpp:get_future", "threadpp/future.hpp:check_retrieved_flag"]}
{"id": "C33", "title": "Invalid futures are rejected", "statement": "After get, then, share or being moved from, a unique future is invalid; get, wait, wait_for, then and the queries of an invalid future throw no_state and change nothing, share and copying give another invalid future.", "quantifier": "every history of handle operations", "why_tests_cant": "All histories.", "anchors": ["threadpp/future.hpp:get", "threadpp/future.hpp:then", "threadpp/future.hpp:share", "threadpp/detail/future_state.hpp:check_state"]}
{"id": "C34", "title": "async delivers the outcome of its callable", "statement": "The future returned by async(i,f) becomes ready only with the value returned by f, the exception thrown by f, or broken_promise if f was dropped without running; f runs at most once and, if i is another thread, only on thread i.", "quantifier": "every callable outcome and every schedule", "why_tests_cant": "All schedules, including the target thread exiting with the task still queued.", "anchors": ["threadpp/future.hpp:async", "threadpp/future.hpp:package_future_task", "threadpp/future.hpp:launch"]}
{"id": "C35", "title": "No orphan futures", "statement": "Every shared state created by async, then, schedule, when_all or when_any that is not yet ready still has a live owner that will satisfy or abandon it: a queued, attached or running task, a live promise object, or a live combinator context.", "quantifier": "every reachable state", "why_tests_cant": "A future nobody will ever satisfy blocks its waiter for ever; must be excluded in every state, including while queues are torn down.", "anchors": ["threadpp/future.hpp:~basic_promise", "threadpp/future.hpp:package_future_task", "threadpp/thread.cpp:unregister_thread_impl"]}
{"id": "C36", "title": "Assigning over an unsatisfied promise abandons it", "statement": "(Violated: the defaulted move assignment drops the old state without storing broken_promise, so its future never becomes ready.)", "quantifier": "every promise state", "why_tests_cant": "Not exercised by the tests.", "anchors": ["threadpp/future.hpp:basic_promise"]}
{"id": "C37", "title": "future::wait returns only when ready or exiting", "statement": "On a registered thread future::wait returns only if the state is ready or the thread was notified for exit; wait_for returns ready only if the state is ready and deferred only if the thread was notified for exit.", "quantifier": "every interleaving", "why_tests_cant": "All interleavings with the notifying thread.", "anchors": ["threadpp/detail/future_state.hpp:wait", "threadpp/detail/future_state.hpp:wait_for"]}
{"id": "C38", "title": "Launch policies", "statement": "With policy async the task is always queued even if the caller is the target; with any other policy it runs inline exactly when the caller is the target (or the target is caller_id()).", "quantifier": "every caller, target and policy", "why_tests_cant": "All combinations including unregistered callers.", "anchors": ["threadpp/future.hpp:launch"]}
{"id": "C39", "title": "No user code runs under a future guard", "statement": "While a thread holds the internal lock of a shared state it runs no user code and waits for no other internal lock, so no thread can be blocked for ever on it.", "quantifier": "every reachable state", "why_tests_cant": "Lock discipline over all states.", "anchors": ["threadpp/detail/future_state.hpp:set_ready", "threadpp/detail/future_state.hpp:wait"]}
{"id": "C40", "title": "when_all becomes ready exactly when all inputs have", "statement": "The future of when_all is satisfied at most once, only after every input is ready, and its i-th element refers to the state of the i-th input; it is abandoned (broken_promise) only if the continuation attached to some input has not run. Once the continuations of all inputs have run it is satisfied, or the thread that runs the last of them still holds the lock of the combinator.", "quantifier": "any number of inputs, any completion order", "why_tests_cant": "All completion orders and sizes.", "anchors": ["threadpp/when_all_any.hpp:when_all", "threadpp/when_all_any.hpp:when_inner_helper"]}
{"id": "C41", "title": "when_any reports a ready input and returns every input", "statement": "The future of when_any is satisfied at most once; unless it is abandoned (broken_promise), its index designates an input that is ready and every element of the returned sequence is valid and refers to the corresponding input. It is abandoned only if no continuation of an input has run; once one has run it is satisfied, or a thread still holds the lock of the combinator, or the call of when_any has not returned.", "quantifier": "any number of inputs, any completion order", "why_tests_cant": "All completion orders, including inputs completing while when_any is still attaching.", "anchors": ["threadpp/when_all_any.hpp:when_any", "threadpp/when_all_any.hpp:recover_input_futures"]}
{"id": "C42", "title": "when_any continuations may block", "statement": "A continuation attached to the when_any future may itself block. (Violated: it runs with the combinator mutex held; if it blocks it processes the continuation of another input on the same thread, which locks the same mutex again.)", "quantifier": "every continuation", "why_tests_cant": "Needs two inputs completing and a blocking continuation.", "anchors": ["threadpp/when_all_any.hpp:when_any"]}
{"id": "C43", "title": "visit_at visits exactly the requested element", "statement": "visit_at(t,i,f) calls f exactly once with element i when i is in range, and throws otherwise.", "quantifier": "every tuple size and index", "why_tests_cant": "All sizes.", "anchors": ["threadpp/when_all_any.hpp:visit_at", "threadpp/when_all_any.hpp:visit_impl"]}
{"id": "C44", "title": "Job ids are unique", "statement": "schedule never returns the same job id twice for one pool and never returns 0.", "quantifier": "every history", "why_tests_cant": "All histories.", "anchors": ["threadpp/thread_pool.cpp:add_job"]}
{"id": "C45", "title": "A job runs at most once", "statement": "The callable of a scheduled job is taken for execution at most once, whatever change_priority, stop and stop_all calls are made.", "quantifier": "every interleaving of workers and clients", "why_tests_cant": "Duplicate handles are deliberately left in the queues by change_priority.", "anchors": ["threadpp/thread_pool.cpp:check_jobs", "threadpp/thread_pool.cpp:change_priority"]}
{"id": "C46", "title": "A stopped job never runs", "statement": "If stop(id) removed the job, it is never taken afterwards and its future becomes ready with broken_promise; if the job had already been taken, stop changes nothing.", "quantifier": "every interleaving", "why_tests_cant": "Race between stop and a worker.", "anchors": ["threadpp/thread_pool.cpp:clear", "threadpp/thread_pool.cpp:check_jobs"]}
{"id": "C47", "title": "No job is stranded", "statement": "As long as a pool has a worker of level <= the level of a job that is not exiting, and the job is neither taken nor stopped, that worker has a pending check for it; so no job stays queued with all eligible workers idle.", "quantifier": "every number of jobs, workers, priority changes and interleavings", "why_tests_cant": "A counting argument over all histories.", "anchors": ["threadpp/thread_pool.cpp:notify_workers", "threadpp/thread_pool.cpp:check_jobs", "threadpp/thread_pool.cpp:get_highest_priority_queue_above"]}
{"id": "C48", "title": "Workers take the most urgent eligible job", "statement": "A check by a worker of level p considers the highest category >= p with queued entries and in it an entry of maximal priority; it never takes a job whose current category is below p.", "quantifier": "every queue content", "why_tests_cant": "All contents.", "anchors": ["threadpp/thread_pool.cpp:get_highest_priority_queue_above", "threadpp/thread_pool.cpp:check_jobs"]}
{"id": "C49", "title": "change_priority moves a job", "statement": "After change_priority a pending job is queued at its new group; raising takes effect at once. (Lowering is violated: the old entry stays in the queue.)", "quantifier": "every queue content", "why_tests_cant": "All contents.", "anchors": ["threadpp/thread_pool.cpp:change_priority"]}
{"id": "C50", "title": "wait(id) returns only when the job is finished", "statement": "(Violated after stop_all: the running job is forgotten and wait returns immediately.) Without stop_all, on a registered non-exiting thread, wait(id) of a scheduled job returns only when its body has finished or the job was stopped.", "quantifier": "every interleaving", "why_tests_cant": "Race between wait, stop_all and the worker.", "anchors": ["threadpp/thread_pool.cpp:wait", "threadpp/thread_pool.cpp:clear_all"]}
{"id": "C51", "title": "A job may schedule jobs", "statement": "schedule may be called from a job running on the pool. (Violated: the pool locks its own mutex twice.)", "quantifier": "every caller", "why_tests_cant": "The tests never schedule from a worker.", "anchors": ["threadpp/thread_pool.cpp:notify_workers", "threadpp/thread_pool.cpp:add_job"]}
{"id": "C52", "title": "The pool destructor leaves nothing behind", "statement": "When the destructor returns every worker has ended and every job not run has been dropped, its future ready.", "quantifier": "every state at destruction", "why_tests_cant": "All states.", "anchors": ["threadpp/thread_pool.cpp:~impl"]}
{"id": "C53", "title": "job handles outlive their pool safely", "statement": "stop/change_priority through a job_future after the pool was destroyed do nothing. (Violated if the pool object was moved: the handle still points to the moved-from pool.)", "quantifier": "every history of pool moves", "why_tests_cant": "Not tested.", "anchors": ["threadpp/thread_pool.cpp:job_future_storage::stop", "threadpp/thread_pool.h:thread_pool(thread_pool&&)"]}
{"id": "C54", "title": "get_jobs_count is exact", "statement": "get_jobs_count equals the number of jobs scheduled and not yet finished, stopped or cleared.", "quantifier": "every history", "why_tests_cant": "All histories.", "anchors": ["threadpp/thread_pool.cpp:get_jobs_count"]}
{"id": "C55", "title": "tpp::thread objects follow RAII", "statement": "After move construction or move assignment exactly one object owns the native thread; destroying or assigning over an owning object ends the thread (notify and join) before continuing.", "quantifier": "every sequence of object operations", "why_tests_cant": "All sequences.", "anchors": ["threadpp/thread.cpp:thread::operator=", "threadpp/thread.cpp:thread::~thread", "threadpp/thread.cpp:thread::swap"]}
{"id": "C56", "title": "Context memory safety", "statement": "As long as no thread unregisters itself from inside a task it is processing, no operation ever touches a destroyed thread context, whatever races between invoke / notify_for_exit / get_pending_task_count and unregistering. (Violated: unregister_this_thread destroys the queue before it clears local_data; a broken promise in the queue launches its continuations, and launch reads the id of the destroyed context.)", "quantifier": "every interleaving", "why_tests_cant": "Use-after-free races.", "anchors": ["threadpp/thread.cpp:unregister_thread_impl", "threadpp/thread.cpp:invoke_packaged_task", "threadpp/thread.cpp:notify_for_exit"]}
{"id": "C57", "title": "tpp::mutex tells unregistered threads apart", "statement": "Two threads that are not registered never both own one tpp::mutex. (Violated: the owner is recorded as this_thread::get_id(), which is the same invalid id for all of them, so one unregistered thread can unlock the mutex of another.)", "quantifier": "every interleaving of lock, try_lock and unlock by unregistered threads", "why_tests_cant": "Not tested.", "anchors": ["threadpp/mutex.hpp:lock", "threadpp/mutex.hpp:unlock", "threadpp/thread.cpp:get_id"]}
{"id": "C58", "title": "No thread is stuck without a reason", "statement": "Whenever a thread that has not ended cannot take a step, it waits for one of four things: a mutex held by another thread, a task or exit request for its own context (or the deadline), the end of the native thread it joins, or the other contexts during shutdown (or the deadline). As soon as that reason has gone, the thread can take a step. In particular no exception is ever in flight without a handler below it, and no call loses its place to return to.", "quantifier": "every reachable state of every program using the library, every thread", "why_tests_cant": "A stuck thread shows only as a hang, and only in the interleaving that causes it.", "anchors": ["threadpp/thread.cpp:wait_for", "threadpp/thread.cpp:shutdown", "threadpp/thread.cpp:join", "threadpp/detail/future_state.hpp:wait"]}
{"id": "C59", "title": "A destroyed context is touched only by its own thread", "statement": "Whenever the next operation of a thread would read or write a destroyed thread context, the context belonged to that same thread, and the thread either removed its registration while it was running one of its own tasks or is still inside unregister_this_thread. No race between two threads leads to an access to a destroyed context.", "quantifier": "every reachable state of every program using the library, every thread and context", "why_tests_cant": "A use after free between threads needs an exact interleaving of look-up, unregistering and destruction.", "anchors": ["threadpp/thread.cpp:unregister_this_thread", "threadpp/thread.cpp:invoke", "threadpp/thread.cpp:notify_for_exit", "threadpp/thread.cpp:get_id"]}
{"id": "C60", "title": "make_ready_future, when_all and when_any do what they say", "statement": "make_ready_future and make_exceptional_future create one state, satisfy it once with the given outcome and return a future for it; so do when_all and when_any of nothing. Otherwise when_all / when_any make one combinator for exactly the states the given futures refer to at that moment, attach one continuation to each of them and return a future for the result of the combinator; none of these calls ends with an exception.", "quantifier": "every call of these functions in every reachable history, every number of inputs, whatever other threads do meanwhile", "why_tests_cant": "Every number of inputs and every interleaving with the threads that satisfy them.", "anchors": ["threadpp/when_all_any.hpp:when_all", "threadpp/when_all_any.hpp:when_any", "threadpp/future.hpp:make_ready_future", "threadpp/future.hpp:make_exceptional_future"]}
{"id": "C61", "title": "Every exception that leaves a call is explained", "statement": "Whenever a call of the library ends with an exception, the exception was thrown by a function given to invoke or dispatch that the calling thread ran inside this call, and the call is one that processes tasks or dispatches; or it is one of the errors the library documents for this call: not joinable, deadlock, no lock held, no state, already satisfied, already retrieved, or for get the error stored in the future. Exceptions of functions given to async, then, schedule or make_thread and of continuations never leave a call.", "quantifier": "every call in every reachable history, whatever user code throws", "why_tests_cant": "Every nesting of tasks, waits and continuations through which an exception may travel.", "anchors": ["threadpp/thread.cpp:process", "threadpp/thread.cpp:dispatch", "threadpp/future.hpp:get", "threadpp/mutex.hpp:lock", "threadpp/thread_pool.cpp:add_job"]}
{"id": "C62", "title": "Undefined behaviour is preceded by a misuse", "statement": "Whenever the next operation of a thread releases a mutex it does not hold, uses a future without state, calls into a pool object without a pool, uses the context of a thread that has none, or violates a precondition of the standard library, the thread is inside a call of the library whose documented precondition is violated: it releases a mutex of the user that the thread does not hold; it is get and the future was consumed while get waited; it is a call on a pool object that was empty at some moment of the call; it is set_thread_config for the invalid id on a thread that is not registered; or it constructs an object in use, copies a unique future, shares a shared one, assigns to a promise that does not exist, combines a future without state, builds a pool from levels out of order, or processes tasks one of which attached the thread to another id. The internal mutexes of the library are never released by a thread that does not hold them.", "quantifier": "every reachable state of every program using the library, every thread", "why_tests_cant": "Undefined behaviour need not show in a test.", "anchors": ["threadpp/condition_variable.hpp:wait", "threadpp/future.hpp:get", "threadpp/thread_pool.cpp:add_job", "threadpp/when_all_any.hpp:when_all", "threadpp/thread.cpp:process"]}
{"id": "C63", "title": "std::terminate is called only for one of three reasons", "statement": "Whenever the next operation of a thread calls std::terminate, either a function that does not belong to a future has thrown on this thread and the thread is not inside any call of the library that could pass the exception on; or the thread is destroying a promise whose state another thread has satisfied between the test and the setting done by the destructor; or it is destroying or assigning over a thread object that had a thread at the start of this and has lost it during the call. No other exception ever meets a destructor or the end of a thread.", "quantifier": "every reachable state of every program using the library, every thread", "why_tests_cant": "A process that terminates in a race needs an exact interleaving.", "anchors": ["threadpp/thread.cpp:thread::~thread", "threadpp/thread.cpp:thread::operator=", "threadpp/future.hpp:~basic_promise", "threadpp/thread.cpp:make_thread"]}
{"id": "C64", "title": "A mutex is locked by its holder only for a reason", "statement": "Whenever the next operation of a thread locks a mutex that this thread holds already, one of these has happened. For a mutex of the user, the thread is in the call of the user that locks it, or in a condition variable wait on it. For the mutex of a future state, the thread has destroyed, since it took the mutex, a task found in the queue of a thread that is gone. For the mutex of a combinator, the thread has launched a continuation or destroyed a function given to the library since it took the mutex. For the mutex of a pool, the thread is a worker of that pool, or it has destroyed a function given to the library since it took the mutex. Every state with undefined behaviour is reached by a step of one thread that leaves the trace as it is, so this and C62 and C63 apply to it.", "quantifier": "every reachable state of every program using the library, every thread and every mutex", "why_tests_cant": "Self deadlock needs a rare nesting of calls; a test sees a hang at most.", "anchors": ["threadpp/detail/future_state.hpp:set_value", "threadpp/when_all_any.hpp:when_any", "threadpp/thread_pool.cpp:add_job", "threadpp/condition_variable.hpp:wait"]}
{"id": "C65", "title": "Every undefined behaviour has a cause", "statement": "In every execution of every program, whatever the kind of the undefined behaviour the library runs into, the trace before it shows a cause given by the program: the misuse of C62, the relocking of C64, the termination of C63, or, for a destroyed context, that the thread left the library from inside a task or is inside unregister_this_thread. So an execution whose trace shows none of these causes is free of undefined behaviour.", "quantifier": "every reachable state of every program using the library, every thread and every kind of undefined behaviour", "why_tests_cant": "Absence of undefined behaviour cannot be tested; a sanitizer sees the schedules it is given.", "anchors": ["threadpp/thread.cpp:unregister_this_thread", "threadpp/detail/future_state.hpp:set_value", "threadpp/future.hpp:get", "threadpp/thread_pool.cpp:add_job"]}
{"id": "C66", "title": "An unlock is lost only between an attempt and the registration", "statement": "A thread registers as a waiter of a tpp::mutex only inside lock, after an attempt that found the mutex taken, and does nothing in between. An unlock after the registration is never lost: as long as the waiter is neither interrupted nor withdrawn, some thread is on its way to wake it. So if a waiter sleeps while the mutex is free and nobody is on the way to wake it, an unlock happened between its attempt and its registration, and the mutex has not been used since.", "quantifier": "every reachable state of every program using the library, every mutex and every waiter", "why_tests_cant": "Which unlocks can be lost depends on the order of steps in two threads; a test that does not hang shows nothing.", "anchors": ["threadpp/mutex.hpp:lock", "threadpp/mutex.hpp:unlock", "threadpp/detail/semaphore.cpp:wait", "threadpp/detail/semaphore.cpp:notify_all"]}
{"id": "C67", "title": "Job handles of pools that are not moved", "statement": "Let a handle returned by schedule be used for stop or change_priority, and let its pool object never be moved. If the pool was destroyed after the handle was made and before the call, the call returns without doing anything. If the pool is there during the whole call, the call works on that pool as the method of the pool does. A null implementation is dereferenced only if the pool is destroyed during the call.", "quantifier": "every reachable state of every program using the library, every handle and every history of pools and threads", "why_tests_cant": "The handle checks the sentinel and uses the pool in two steps; the outcomes depend on what other threads do in between.", "anchors": ["threadpp/thread_pool.cpp:job_future_storage::stop", "threadpp/thread_pool.cpp:job_future_storage::change_priority", "threadpp/thread_pool.h:sentinel_"]}
{"id": "C68", "title": "After wait and wait_all the functions of the jobs are over", "statement": "When the pool future of a job becomes ready, or the job is removed from the table by its worker or by stop, the function of the job has returned or thrown, or it never begins. So when wait or wait_all returns normally, the function of every job waited for that was added before the call is over, unless the waiting thread was not registered or was told to exit during the call, or stop_all or the destruction of the pool removed the job while it was being executed.", "quantifier": "every reachable history, every call of wait and wait_all, every job and every number of workers", "why_tests_cant": "That a function never runs after the wait cannot be seen in a test that happens to be fast enough.", "anchors": ["threadpp/thread_pool.cpp:wait", "threadpp/thread_pool.cpp:wait_all", "threadpp/thread_pool.cpp:add_job", "threadpp/thread_pool.cpp:stop"]}
{"id": "C69", "title": "get of a shared_future leaves the value in place", "statement": "Every read of the value of a state by get either goes through a shared_future, or the thread has just emptied a unique future object that referred to the state. The value of a state is moved out only by the latter: as long as nobody calls get on a unique future of the state, every shared_future finds the value as it was stored.", "quantifier": "every reachable state of every program using the library, every state and every future object", "why_tests_cant": "Whether a value was moved from is visible only for some types of values.", "anchors": ["threadpp/future.hpp:get", "threadpp/future.hpp:share", "threadpp/detail/future_state.hpp:get_value_assuming_ready"]}
{"id": "C70", "title": "Jobs are taken out of order only after they were lowered", "statement": "When a worker takes a job, it takes it for a group that the job was given when it was scheduled or by change_priority, and this group is at least as urgent as the present group of every waiting job that this worker may take. So raising a job always takes effect, and a job that was never lowered is never taken before a more urgent one.", "quantifier": "every reachable history, every pool, every number of workers and jobs and every sequence of changes", "why_tests_cant": "Every sequence of schedule, change_priority, stop and checks by several workers.", "anchors": ["threadpp/thread_pool.cpp:change_priority", "threadpp/thread_pool.cpp:check_jobs", "threadpp/thread_pool.cpp:add_job_handle"]}
{"id": "C71", "title": "The internal mutexes alone never make a deadlock", "statement": "A thread that holds a mutex of the library (of a future state, of a combinator or of a pool) can always make a step, unless under this mutex it has destroyed a function given to the library or, in a combinator, launched a continuation. The only other exception is a thread in a combinator that waits for the mutex of a future state held by another thread, and then that thread can make a step or has destroyed a task of a thread that is gone. So, without such destructions and launches, whenever an internal mutex is held, the holder of one of them can make a step.", "quantifier": "every reachable state of every program using the library, every thread and every internal mutex", "why_tests_cant": "A deadlock between internal mutexes needs an exact interleaving of several threads.", "anchors": ["threadpp/detail/future_state.hpp:set_value", "threadpp/when_all_any.hpp:when_any", "threadpp/thread_pool.cpp:add_job", "threadpp/thread_pool.cpp:check_jobs"]}
{"id": "C72", "title": "Workers start every task they were given", "statement": "Let a thread made by make_thread be in its loop between two tasks, let it stay attached to its context and let nobody ask it to exit. Then, whatever it and the other threads do, either all tasks accepted before have been started in the order of acceptance, or it has taken at most three steps between tasks for each of them and is able to take a step whenever it is between two tasks. So no accepted task waits for ever unless a task before it never ends.", "quantifier": "every reachable state of every program, every continuation of the execution of any length, every number of tasks", "why_tests_cant": "Starvation is a statement about all continuations of an execution.", "anchors": ["threadpp/thread.cpp:wait", "threadpp/thread.cpp:process_one", "threadpp/thread.cpp:make_thread"]}
{"id": "C73", "title": "A waiting thread does not miss that a future becomes ready", "statement": "A thread registers as waiter of a future state only while the state is not ready and the thread holds the mutex of the state. Once the state is ready, a registered waiter that was not taken off the list and not interrupted is about to be interrupted by the thread that completed the state; and a waiter that sleeps is about to be interrupted, has a task to wake it, or a thread is about to queue one.", "quantifier": "every reachable state of every program using the library, every waiter of every state", "why_tests_cant": "A lost wakeup needs an exact interleaving of the waiting and the completing thread.", "anchors": ["threadpp/detail/future_state.hpp:wait", "threadpp/detail/future_state.hpp:set_value", "threadpp/detail/semaphore.cpp:wait", "threadpp/detail/semaphore.cpp:notify_all"]}
{"id": "C74", "title": "Nested waits for one future do not cancel each other", "statement": "When a thread that waits for a future runs a task which waits for the same future, and this inner wait ends by its time limit, the outer wait still returns when the future becomes ready.", "quantifier": "every nesting of waits for futures on one thread", "why_tests_cant": "Needs a task that waits for the same future with a limit while the outer wait is in progress.", "anchors": ["threadpp/detail/future_state.hpp:wait_for", "threadpp/detail/semaphore.cpp:remove_waiter"]}
{"id": "C75", "title": "The callable and the arguments of a task reach the callee", "statement": "Capturing a callable and its arguments takes the values the variables have, empties the variables given up by std::move and leaves all others alone. However often the task is copied or moved afterwards, a call of the copy that the chain of copies leads to passes the captured values to the callee in the order given, and references for reference wrappers. All other copies hold no value, so no value is delivered twice.", "quantifier": "every number and kind of arguments, every sequence of copies, moves, calls and destructions of the task", "why_tests_cant": "Tasks pass through several copies on their way; a test sees the copies that one path makes.", "anchors": ["threadpp/detail/utility/capture.hpp:move_on_copy_t", "threadpp/detail/utility/capture.hpp:capture", "threadpp/detail/utility/apply.hpp:apply", "threadpp/thread.h:package_simple_task", "threadpp/future.hpp:package_future_task"]}
{"id": "C76", "title": "A waiting job is not passed over for ever", "statement": "As long as a job waits in a group, every check of the queue by a worker that may take it uses up a queue entry at least as urgent as this group. So the number of such checks is less than the number of these entries at the beginning plus the number of jobs scheduled for, or raised to, such a group meanwhile. And a worker of the category of the job or a lower one, which stays attached and is not asked to exit, has checked the queue, or is about to, when it has started the tasks accepted for it so far, which it does by C72. So a job is taken unless more urgent jobs keep coming for ever or the functions of all workers never end.", "quantifier": "every reachable history, every pool, every number of workers and jobs, every continuation", "why_tests_cant": "Starvation is a statement about executions of any length.", "anchors": ["threadpp/thread_pool.cpp:check_jobs", "threadpp/thread_pool.cpp:change_priority", "threadpp/thread_pool.cpp:add_job", "threadpp/thread.cpp:process_one"]}
{"id": "C77", "title": "A function sent to a thread gets its result when the thread is back in its loop", "statement": "Once a thread has started the closure of a packaged function (async or then), the shared state of the function is ready, or this same thread still runs the function or is storing its outcome. So when the thread is back in its loop the future is ready. And a function accepted for a worker that stays attached and is not asked to exit is ready when the worker is back in its loop, or the worker has made only a bounded number of steps between tasks and can go on.", "quantifier": "every reachable history, thread and packaged function, every execution in which the worker stays attached and is not asked to exit", "why_tests_cant": "That no path through the task runner loses a result depends on all interleavings of the worker with setters, waiters and nested task processing.", "anchors": ["threadpp/future.hpp:package_future_task", "threadpp/future.hpp:apply_and_forward_as", "threadpp/thread.cpp:process_one"]}
{"id": "C78", "title": "wait_until does not report a timeout early", "statement": "wait_until of condition_variable and of futures reads the clock and calls wait_for with the difference. However much time passes between the two, a timeout is reported only when the point in time has come, up to the microsecond wait_for cuts off.", "quantifier": "every reachable history, every point in time, every delay between reading the clock and waiting", "why_tests_cant": "A test sees the timing of one schedule only.", "anchors": ["threadpp/condition_variable.hpp:wait_until", "threadpp/future.hpp:wait_until"]}
{"id": "C79", "title": "The members that are not atomic are accessed without data races", "statement": "Two threads are never about to access the same plain member (value, exception and callbacks of a future state, the flags and the collected futures of a combinator, the jobs and workers of a pool, the id of the main thread) at the same time when one of them writes it.", "quantifier": "for all executions, all pairs of threads and all these members", "why_tests_cant": "a data race has no defined effect and may stay invisible in every test run", "anchors": ["threadpp/detail/future_state.hpp:rethrow_any_exception", "threadpp/detail/future_state.hpp:exception", "threadpp/thread.cpp:main_thread_id", "threadpp/thread_pool.cpp:mutex"]}
{"id": "C80", "title": "The futures of when_all and when_any get their results when the thread is back in its loop", "statement": "When one thread has started the continuations of all inputs of a when_all and is back in its loop, the future made by when_all is ready. For when_any one continuation is enough if no other thread ran one and it was the calling thread. When the continuations were accepted for a worker that stays attached and is not asked to exit, then whenever the worker is back in its loop the future is ready, or the worker has made only a bounded number of steps between tasks and can go on.", "quantifier": "every reachable history, every number of inputs, every execution in which the worker stays attached and is not asked to exit", "why_tests_cant": "The last continuation and the call itself can meet in any order on the mutex of the combinator; that one of them always stores the result is a statement about all interleavings.", "anchors": ["threadpp/when_all_any.hpp:when_all", "threadpp/when_all_any.hpp:when_any", "threadpp/thread.cpp:process_one"]}
{"id": "C81", "title": "A job that a worker took has its result when the worker is back in its loop", "statement": "When a worker has taken a job from the queue, then its future is ready or this worker is at work on the job. So the future, and the one that wait looks at, is ready whenever the worker is back in its loop, and when its thread has ended, whatever the function of the job did and also when the pool was destroyed meanwhile.", "quantifier": "every reachable history, every pool, every job and every worker", "why_tests_cant": "The job may throw, call into the library or run while the pool is cleared and destroyed; a test can sample only few of these interleavings.", "anchors": ["threadpp/thread_pool.cpp:check", "threadpp/thread_pool.h:schedule", "threadpp/future.hpp:packaged_task"]}
{"id": "C82", "title": "No job and no function is lost", "statement": "When no thread is busy inside the library (every thread runs its own function outside of calls, is in its loop between two tasks, waits in a call, or has ended), every job that was ever scheduled waits in its pool, or its future and the one that wait looks at are ready. Every function given to async, then or schedule has its result, or its closure waits in the queue of a context that exists, at a future, or in the table of a pool.", "quantifier": "every reachable state in which no thread is busy inside the library, every job and every function", "why_tests_cant": "A closure can get lost on any path through the queues, the stop calls, the destructors and the exits of threads; that none loses one is a statement about all paths.", "anchors": ["threadpp/thread_pool.cpp:check", "threadpp/thread_pool.cpp:stop", "threadpp/thread_pool.h:schedule", "threadpp/thread.cpp:process_one", "threadpp/future.hpp:package_future_task"]}
{"id": "C83", "title": "No combinator is lost", "statement": "When no thread is busy inside the library, the future made by when_all or when_any is ready, or a closure that refers to the combinator waits in the queue of a context that exists, or the continuation of an input is still attached to this input and the input is not ready. So the future of a when_all is ready when all inputs are and the queues are empty.", "quantifier": "every reachable state in which no thread is busy inside the library, every combinator and every number of inputs", "why_tests_cant": "The combinator is kept alive only by the references of its continuations; that none of them is dropped on some path is a statement about all interleavings.", "anchors": ["threadpp/when_all_any.hpp:when_all", "threadpp/when_all_any.hpp:when_any", "threadpp/detail/future_state.hpp:callbacks"]}
{"id": "C84", "title": "Why nothing moves", "statement": "No thread is busy inside the library and a worker of a pool sleeps in its loop and cannot go on. Then every job of the pool without result waits in the pool, and its category is too low for this worker. A worker that may take a waiting job has a check of the pool in its queue. A thread that sleeps for good has an empty queue and was not asked to exit. A function given to async, then or schedule that has no result is attached to a future that is not ready, is in the table of a pool, or is in the queue of a context in which no thread sleeps for good.", "quantifier": "every reachable state in which no thread is busy inside the library, every pool, job, worker and function", "why_tests_cant": "A hang shows only as a test that does not end; the statement gives its cause for every state in which nothing moves.", "anchors": ["threadpp/thread_pool.cpp:check_jobs", "threadpp/thread_pool.h:schedule", "threadpp/thread.cpp:wait", "threadpp/detail/future_state.hpp:callbacks"]}
{"id": "C85", "title": "The cause of a future without result", "statement": "When no thread is busy inside the library, every future without result depends, through a chain of attached continuations and combinators, on a promise of the user that has not been set, on a job that waits in its pool, or on a closure in the queue of a context that exists. If every context that exists has a thread that sleeps for good, it depends on such a promise or on a waiting job whose category is too low for the sleeping workers of its pool. The chain leads to older states only, so futures never wait for each other in a circle.", "quantifier": "every reachable state in which no thread is busy inside the library, every future and every length of the chain", "why_tests_cant": "Chains of continuations and combinators have any length, and a future that is forgotten shows only as a test that does not end.", "anchors": ["threadpp/future.hpp:then", "threadpp/when_all_any.hpp:when_all", "threadpp/when_all_any.hpp:when_any", "threadpp/detail/future_state.hpp:callbacks", "threadpp/thread_pool.cpp:check_jobs"]}
{"id": "C86", "title": "Why a wait for a future does not return", "statement": "No thread is busy inside the library, and a thread sleeps in a wait for a future and cannot go on. Then its registration as waiter was removed by another wait for the same future inside a task that it ran meanwhile (see C74), or the future has no result and depends, through continuations and combinators, on a promise of the user that has not been set, on a job that waits in its pool, or on a closure in the queue of a context. If every context sleeps for good, it is such a promise or a job whose category is too low for the sleeping workers of its pool.", "quantifier": "every reachable state in which no thread is busy inside the library, every waiting thread and every future", "why_tests_cant": "A hang shows only as a test that does not end; the statement lists all its causes, for every interleaving.", "anchors": ["threadpp/detail/future_state.hpp:callbacks", "threadpp/condition_variable.hpp:wait", "threadpp/future.hpp:then", "threadpp/when_all_any.hpp:when_all", "threadpp/thread_pool.cpp:check_jobs"]}
{"id": "C87", "title": "Why a thread does not come back from a mutex or a condition variable", "statement": "No thread is about to wake up others, and a thread sleeps in lock of a tpp::mutex and cannot go on. Then the mutex is taken, or the registration of the thread was removed by a lock inside this lock, or the mutex was released between its attempt and its registration and nobody has used it since. A thread that sleeps at a condition variable and cannot go on is registered, nobody has notified all since it registered and no notification was for it, or its registration was removed by a wait inside this wait.", "quantifier": "every reachable state in which no thread is about to wake up others, every waiting thread, mutex and condition variable", "why_tests_cant": "A hang shows only as a test that does not end; the statement lists all its causes, for every interleaving.", "anchors": ["threadpp/mutex.hpp:lock", "threadpp/mutex.hpp:unlock", "threadpp/condition_variable.hpp:wait", "threadpp/condition_variable.hpp:notify_all"]}
{"id": "C88", "title": "The cause of a future without result, at any moment", "statement": "At any moment, every future without result depends, through a chain of attached continuations and combinators, on a promise of the user, on a closure in the table of a pool or in the queue of a context, or on a call in progress on some thread, which holds the closure, sets the result or works on the combinator. So a thread that hangs in a wait for a future while no thread is about to wake up others hangs for one of these reasons, or its registration was removed by a wait inside the wait. A promise of the user without result is still referred to by a promise object or a call in progress, or its promise object was assigned another promise.", "quantifier": "every reachable state, every future, every length of the chain and every waiting thread", "why_tests_cant": "Chains of continuations and combinators have any length, and a future that is forgotten on one interleaving shows only as a test that does not end.", "anchors": ["threadpp/future.hpp:then", "threadpp/when_all_any.hpp:when_all", "threadpp/when_all_any.hpp:when_any", "threadpp/detail/future_state.hpp:callbacks", "threadpp/thread_pool.cpp:check_jobs"]}
