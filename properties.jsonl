{"id": "C01", "title": "sync_bounded_queue is a FIFO that neither loses, duplicates nor invents elements", "statement": "For every history of calls on a sync_bounded_queue, the values obtained by successful pulls, in the order in which the pulls took effect, followed by the values still stored, are exactly the values accepted by successful pushes, in order.", "quantifier": "all capacities >= 1, all numbers of threads, all schedules, all operation mixes (push/try_push/wait_push/nonblocking, pull/try_pull/wait_pull, close)", "why_tests_cant": "The claim ranges over every interleaving of any number of threads; a test run exercises a handful of schedules and cannot force the bad one.", "anchors": ["include/boost/thread/concurrent_queues/sync_bounded_queue.hpp: sync_bounded_queue"]}
{"id": "C02", "title": "sync_bounded_queue never exceeds its capacity and reports full/empty exactly", "statement": "At every moment the queue stores at most max_elems elements; try_push_back reports full exactly when max_elems elements are stored, and try_pull_front reports empty exactly when none is stored and the queue is open.", "quantifier": "all capacities >= 1, all histories", "why_tests_cant": "Index wrap-around only misbehaves for particular in/out positions relative to the capacity; every reachable position must be covered.", "anchors": ["include/boost/thread/concurrent_queues/sync_bounded_queue.hpp: sync_bounded_queue"]}
{"id": "C03", "title": "sync_bounded_queue::size() is the number of stored elements", "statement": "size() returns the number of elements that have been pushed and not yet pulled.", "quantifier": "all capacities >= 1 and all reachable index positions", "why_tests_cant": "The value is wrong only after the ring indices have wrapped, for some fill levels; a test would need to hit those positions.", "anchors": ["include/boost/thread/concurrent_queues/sync_bounded_queue.hpp: size(lock_guard<mutex>&), 127-131"]}
{"id": "C04", "title": "sync_bounded_queue wake-ups are never lost", "statement": "Whenever no thread can make a step on its own, every thread blocked in a pull sees an empty open queue and every thread blocked in a push sees a full open queue: no thread stays asleep while the element or slot it waits for is available.", "quantifier": "all thread counts, all schedules incl. spurious wake-ups, threads not interrupted", "why_tests_cant": "A lost wake-up needs one particular ordering of notify and wait; passing tests say nothing about the other orderings.", "anchors": ["include/boost/thread/concurrent_queues/sync_bounded_queue.hpp: sync_bounded_queue"]}
{"id": "C05", "title": "closing a sync_bounded_queue releases every blocked caller and rejects every later push", "statement": "After close() no push succeeds, stored elements are still delivered, and once no step is possible no thread is blocked in the queue.", "quantifier": "all schedules, all points at which close() happens", "why_tests_cant": "The claim ranges over every interleaving of any number of threads; a test run exercises a handful of schedules and cannot force the bad one.", "anchors": ["include/boost/thread/concurrent_queues/sync_bounded_queue.hpp: sync_bounded_queue"]}
{"id": "C06", "title": "sync_bounded_queue wait_push_back reports closure uniformly by its status", "statement": "wait_push_back returns queue_op_status::closed whenever the queue is closed before the element could be stored (it does not sometimes throw).", "quantifier": "all schedules of close() against a blocked wait_push_back", "why_tests_cant": "Only a close that arrives while the caller sleeps shows the difference.", "anchors": ["include/boost/thread/concurrent_queues/sync_bounded_queue.hpp: wait_push_back 543-548, wait_until_not_full 576-589"]}
{"id": "C07", "title": "sync_bounded_queue wake-ups survive thread interruption", "statement": "A thread blocked in a pull is woken when an element is available, even if another blocked thread is interrupted concurrently.", "quantifier": "all schedules with interruption of waiting threads", "why_tests_cant": "The notification must be in flight to the interrupted thread when interrupt() is called.", "anchors": ["include/boost/thread/concurrent_queues/sync_bounded_queue.hpp: sync_bounded_queue", "include/boost/thread/pthread/condition_variable.hpp: condition_variable::wait 64-94"]}
{"id": "C08", "title": "sync_queue / sync_deque are FIFO without loss or duplication", "statement": "The values pulled, in effect order, followed by the values stored, equal the values pushed, in effect order; a pull reports closed only when the queue is closed and empty, and a push reports closed only when the queue is closed.", "quantifier": "all thread counts, histories and schedules", "why_tests_cant": "The claim ranges over every interleaving of any number of threads; a test run exercises a handful of schedules and cannot force the bad one.", "anchors": ["include/boost/thread/concurrent_queues/sync_queue.hpp: sync_queue", "include/boost/thread/concurrent_queues/detail/sync_queue_base.hpp: sync_queue_base", "include/boost/thread/concurrent_queues/sync_deque.hpp: sync_deque", "include/boost/thread/concurrent_queues/detail/sync_deque_base.hpp"]}
{"id": "C09", "title": "sync_queue / sync_deque wake-ups are never lost", "statement": "When no thread can step on its own, a thread blocked in a pull implies that the queue is empty and open.", "quantifier": "all schedules incl. spurious wake-ups and timeouts", "why_tests_cant": "Needs a particular ordering of notify_one and wait.", "anchors": ["include/boost/thread/concurrent_queues/sync_queue.hpp: sync_queue", "include/boost/thread/concurrent_queues/detail/sync_queue_base.hpp: sync_queue_base", "include/boost/thread/concurrent_queues/sync_deque.hpp: sync_deque", "include/boost/thread/concurrent_queues/detail/sync_deque_base.hpp"]}
{"id": "C10", "title": "sync_queue::underlying_queue / moving a devector leaves both objects usable", "statement": "After taking the elements out with underlying_queue() the source queue is empty: empty() is true, size() is 0 and the next push/pull pair returns the pushed value.", "quantifier": "all queue contents and all numbers of elements already pulled", "why_tests_cant": "Holds when nothing was pulled before the move and fails otherwise.", "anchors": ["include/boost/thread/csbl/devector.hpp: devector(BOOST_THREAD_RV_REF(devector)) 45-48, operator= 60-68", "include/boost/thread/concurrent_queues/detail/sync_queue_base.hpp: underlying_queue 60-63", "include/boost/thread/executors/loop_executor.hpp: run_queued_closures 193-202"]}
{"id": "C11", "title": "devector behaves as a double-ended sequence", "statement": "push_back/pop_front/front/empty/size of the devector used by sync_queue agree with a plain list for every operation sequence that respects the non-empty precondition of front/pop_front.", "quantifier": "all operation sequences", "why_tests_cant": "Unbounded operation histories.", "anchors": ["include/boost/thread/csbl/devector.hpp: devector"]}
{"id": "C12", "title": "sync_priority_queue pulls a greatest element and conserves the multiset", "statement": "Each pull returns an element not smaller than any other stored element, and the stored multiset is exactly pushed minus pulled.", "quantifier": "all comparators that are strict weak orders, all histories and schedules", "why_tests_cant": "All element orders and interleavings.", "anchors": ["include/boost/thread/concurrent_queues/sync_priority_queue.hpp: sync_priority_queue, detail::priority_queue"]}
{"id": "C13", "title": "sync_timed_queue never delivers an element before its due time and delivers in due-time order", "statement": "A pull returns an element only at a clock reading not earlier than the element's due time, and no stored element has an earlier due time.", "quantifier": "all monotone clocks, schedules and contents", "why_tests_cant": "Depends on clock readings interleaving with waits.", "anchors": ["include/boost/thread/concurrent_queues/sync_timed_queue.hpp: sync_timed_queue"]}
{"id": "C14", "title": "sync_timed_queue delivers every element that becomes due, also after close", "statement": "An element stored in the queue is eventually pullable: after close(), pulling at a time past its due time returns it, and a blocked puller is woken when an earlier element is pushed.", "quantifier": "all schedules", "why_tests_cant": "Close races with a due time in the future.", "anchors": ["include/boost/thread/concurrent_queues/sync_timed_queue.hpp: sync_timed_queue"]}
{"id": "C15", "title": "latch releases waiters exactly when the count reaches zero", "statement": "wait() returns only after as many count_down calls as the initial count have taken effect, and then every thread in wait() returns.", "quantifier": "all counts, thread numbers and schedules, incl. reset() for reuse", "why_tests_cant": "The claim ranges over every interleaving of any number of threads; a test run exercises a handful of schedules and cannot force the bad one.", "anchors": ["include/boost/thread/latch.hpp: latch"]}
{"id": "C16", "title": "barrier releases its threads in groups of exactly n with one true per group", "statement": "No wait() returns before n threads have arrived in the current group, when the n-th arrives all n return, exactly one of them with true, and the barrier is immediately reusable for the next group.", "quantifier": "all n >= 1, all numbers of threads and rounds, all schedules incl. spurious wake-ups", "why_tests_cant": "A slow thread of one round must not be caught by the next round, for every schedule.", "anchors": ["include/boost/thread/barrier.hpp: barrier"]}
{"id": "C17", "title": "barrier interrupted waiters do not disturb the group count", "statement": "If a thread waiting at a barrier is interrupted, the barrier still waits for n threads that stay.", "quantifier": "all schedules with interruption", "why_tests_cant": "Only an interruption in the middle of a round shows it.", "anchors": ["include/boost/thread/barrier.hpp: barrier"]}
{"id": "C18", "title": "completion_latch waits return once the count has reached zero", "statement": "wait() called after completion returns immediately, and try_wait()/wait_for() never block longer than requested.", "quantifier": "all schedules and call orders", "why_tests_cant": "The hang needs a call order no ordinary test uses.", "anchors": ["include/boost/thread/completion_latch.hpp: completion_latch", "include/boost/thread/detail/counter.hpp"]}
{"id": "C19", "title": "call_once runs the function to completion exactly once", "statement": "For each once_flag at most one call of the callable completes normally, no two calls overlap, and call_once returns normally only after that completion.", "quantifier": "all thread counts, schedules and exception patterns of the callable", "why_tests_cant": "The claim ranges over every interleaving of any number of threads; a test run exercises a handful of schedules and cannot force the bad one.", "anchors": ["src/pthread/once_atomic.cpp: enter_once_region, commit_once_region, rollback_once_region", "include/boost/thread/pthread/once_atomic.hpp: call_once"]}
{"id": "C20", "title": "call_once retries after an exception and leaves no thread behind", "statement": "If the callable throws, the exception reaches the caller that ran it and the flag is open for another attempt; when no thread can step, no thread is blocked in call_once unless some thread is executing the callable.", "quantifier": "all schedules and exception patterns", "why_tests_cant": "Wake-up after the exceptional exit must be covered for every interleaving.", "anchors": ["src/pthread/once_atomic.cpp: enter_once_region, commit_once_region, rollback_once_region", "include/boost/thread/pthread/once_atomic.hpp: call_once"]}
{"id": "C21", "title": "epoch-based call_once (non-atomic variant) has the same guarantee", "statement": "The per-thread epoch fast path of the generic pthread call_once never skips the callable for a flag whose initialisation has not completed.", "quantifier": "all interleavings, any number of flags and threads, up to the stated epoch range", "why_tests_cant": "The thread-local cache is stale in arbitrary ways.", "anchors": ["include/boost/thread/pthread/once.hpp: call_once 42-174", "src/pthread/once.cpp"]}
{"id": "C22", "title": "shared_mutex: an exclusive owner excludes every other owner", "statement": "Whenever a thread owns the mutex exclusively no other thread owns it in any mode, and at most one thread holds upgrade ownership.", "quantifier": "all thread counts and schedules of lock/try_lock/timed/shared/upgrade operations and downgrades, without the timed upward conversions", "why_tests_cant": "The claim ranges over every interleaving of any number of threads; a test run exercises a handful of schedules and cannot force the bad one.", "anchors": ["include/boost/thread/pthread/shared_mutex.hpp: shared_mutex"]}
{"id": "C23", "title": "shared_mutex: no wake-up is lost", "statement": "When no thread can step on its own, no thread is blocked in lock, lock_shared, lock_upgrade or unlock_upgrade_and_lock although the ownership it waits for is available (and nobody holds the mutex only if nobody is blocked).", "quantifier": "all schedules incl. spurious wake-ups and timeouts", "why_tests_cant": "A missed notification needs one particular interleaving.", "anchors": ["include/boost/thread/pthread/shared_mutex.hpp: shared_mutex"]}
{"id": "C24", "title": "shared_mutex: upgrade to exclusive is atomic", "statement": "Between the call of unlock_upgrade_and_lock by the upgrade owner and its return no other thread acquires exclusive or upgrade ownership.", "quantifier": "all schedules", "why_tests_cant": "The claim ranges over every interleaving of any number of threads; a test run exercises a handful of schedules and cannot force the bad one.", "anchors": ["include/boost/thread/pthread/shared_mutex.hpp: shared_mutex"]}
{"id": "C25", "title": "shared_mutex: timed upward conversion keeps exclusion", "statement": "try_unlock_shared_and_lock_until never produces two exclusive owners and never destroys another thread's upgrade ownership.", "quantifier": "all schedules", "why_tests_cant": "Needs an upgrade owner waiting at the same time.", "anchors": ["include/boost/thread/pthread/shared_mutex.hpp: try_unlock_shared_and_lock_until, unlock_upgrade_and_lock"]}
{"id": "C26", "title": "shared_mutex: a waiting timed upgrade is woken when the last other reader leaves", "statement": "try_unlock_upgrade_and_lock_until succeeds as soon as the caller is the only owner.", "quantifier": "all schedules", "why_tests_cant": "The waiter is only ever saved by its own timeout.", "anchors": ["include/boost/thread/pthread/shared_mutex.hpp: try_unlock_upgrade_and_lock_until, unlock_shared"]}
{"id": "C27", "title": "shared_mutex: a waiting writer blocks new readers", "statement": "While a thread waits in lock() no thread newly acquires shared ownership.", "quantifier": "all schedules", "why_tests_cant": "Depends on which waiter clears the writer-waiting flag.", "anchors": ["include/boost/thread/pthread/shared_mutex.hpp: lock, try_lock_until, unlock_shared"]}
{"id": "C28", "title": "thread_v2 shared_mutex/upgrade_mutex: exclusion", "statement": "An exclusive owner excludes all other owners, at most one upgrade owner exists, and the reader count never exceeds its field.", "quantifier": "all schedules of the untimed operations and timed lock attempts", "why_tests_cant": "The claim ranges over every interleaving of any number of threads; a test run exercises a handful of schedules and cannot force the bad one.", "anchors": ["include/boost/thread/v2/shared_mutex.hpp: thread_v2::shared_mutex, thread_v2::upgrade_mutex"]}
{"id": "C29", "title": "thread_v2: a timed-out lock attempt leaves the mutex as if it had not been made", "statement": "When try_lock_until / try_unlock_upgrade_and_lock_until times out, threads that were held back only by the attempt are released and the owner count is restored.", "quantifier": "all schedules", "why_tests_cant": "The failure needs other readers to leave or arrive during the timed wait.", "anchors": ["include/boost/thread/v2/shared_mutex.hpp: thread_v2::shared_mutex, thread_v2::upgrade_mutex"]}
{"id": "C30", "title": "timed_mutex (condition-variable implementation): exclusion and no lost wake-up", "statement": "At most one thread owns the mutex; when no thread can step on its own and the mutex is free, no thread is blocked in lock or a timed lock.", "quantifier": "all schedules incl. spurious wake-ups and timeouts", "why_tests_cant": "The claim ranges over every interleaving of any number of threads; a test run exercises a handful of schedules and cannot force the bad one.", "anchors": ["include/boost/thread/pthread/mutex.hpp: timed_mutex 204-290"]}
{"id": "C31", "title": "recursive_mutex (condition-variable implementation): counted ownership", "statement": "Only one thread owns the mutex; the owner may lock again without blocking and the mutex becomes free after exactly as many unlocks as successful locks.", "quantifier": "all schedules and nesting depths", "why_tests_cant": "Unbounded depth and interleavings.", "anchors": ["include/boost/thread/pthread/recursive_mutex.hpp: recursive_mutex, recursive_timed_mutex"]}
{"id": "C32", "title": "timed_lock(relative) returns true only if it acquired the mutex", "statement": "For every time_duration argument, timed_lock returning true means that the caller owns the mutex.", "quantifier": "all time_duration values, incl. special values", "why_tests_cant": "Special duration values are not among ordinary test inputs.", "anchors": ["include/boost/thread/pthread/mutex.hpp: timed_mutex::timed_lock", "include/boost/thread/pthread/recursive_mutex.hpp: recursive_timed_mutex::timed_lock"]}
{"id": "C33", "title": "lock objects release what they own exactly once", "statement": "For every sequence of constructions, moves, swaps, lock/try_lock/unlock/release calls, conversions and destructions of lock objects that end with all of them destroyed, each mutex has been unlocked exactly as often and in the same mode as it was locked through them, except for those explicitly released.", "quantifier": "all operation sequences over any number of lock objects and mutexes, with any outcomes of try operations and any exceptions from lock operations", "why_tests_cant": "Unbounded programs with exceptions at any point.", "anchors": ["include/boost/thread/lock_types.hpp: unique_lock, shared_lock, upgrade_lock, upgrade_to_unique_lock"]}
{"id": "C34", "title": "lock objects report misuse without touching the mutex", "statement": "lock/try_lock on a lock without mutex or one that already owns, and unlock on one that does not own, throw lock_error with the documented code and change nothing.", "quantifier": "all states of the lock object", "why_tests_cant": "All states, incl. those after failed operations.", "anchors": ["include/boost/thread/lock_types.hpp: unique_lock, shared_lock, upgrade_lock, upgrade_to_unique_lock"]}
{"id": "C35", "title": "boost::lock acquires all or, if it throws, none", "statement": "When boost::lock(m1,...,mn) (or the range form) returns, every argument is locked exactly once more than before; if an operation throws, none of the arguments stays locked by the call.", "quantifier": "2 to 5 lockables and ranges of any length, any pattern of try_lock failures and exceptions", "why_tests_cant": "The retry loop has unboundedly many failure patterns.", "anchors": ["include/boost/thread/lock_algorithms.hpp: lock, try_lock, try_lock_internal, lock_helper, lock_impl"]}
{"id": "C36", "title": "boost::lock never blocks while holding one of its arguments", "statement": "At every blocking lock() call made by boost::lock none of the arguments is held by the call, so a set of threads that only use boost::lock on overlapping sets cannot be in a waiting cycle.", "quantifier": "all argument orders, all thread counts and schedules", "why_tests_cant": "Deadlock freedom quantifies over all interleavings.", "anchors": ["include/boost/thread/lock_algorithms.hpp: lock, try_lock, try_lock_internal, lock_helper, lock_impl"]}
{"id": "C37", "title": "boost::try_lock reports the first failing argument and holds nothing on failure", "statement": "try_lock returns -1 (or end) iff it locked all arguments; otherwise it returns the 0-based index (iterator) of an argument whose try_lock failed, and no argument remains locked.", "quantifier": "2 to 5 lockables / any range length, all outcome patterns", "why_tests_cant": "All outcome patterns.", "anchors": ["include/boost/thread/lock_algorithms.hpp: lock, try_lock, try_lock_internal, lock_helper, lock_impl"]}
{"id": "C38", "title": "synchronized_value operations are atomic and deadlock-free", "statement": "Copy, assignment, swap and comparison of synchronized_value objects by any number of threads behave like atomic operations on plain values and never deadlock, also when both operands are the same object.", "quantifier": "all operand combinations and schedules", "why_tests_cant": "Self-operations and opposite operand orders are rare in tests.", "anchors": ["include/boost/thread/synchronized_value.hpp: synchronized_value"]}
{"id": "C39", "title": "reverse_lock restores the lock's previous state", "statement": "After a reverse_lock scope the lock object is in the state it had before: owning iff it owned before.", "quantifier": "all states of the lock object", "why_tests_cant": "Only the not-owning case differs.", "anchors": ["include/boost/thread/reverse_lock.hpp: reverse_lock", "include/boost/thread/strict_lock.hpp: nested_strict_lock"]}
{"id": "C40", "title": "an interruption is delivered exactly once, at an interruption point with interruption enabled", "statement": "After interrupt() the target throws thread_interrupted at its next interruption point executed while interruption is enabled, exactly once; while interruption is disabled nothing is thrown and the request is kept.", "quantifier": "all schedules of interrupt() against waits and nested disable/restore scopes", "why_tests_cant": "The claim ranges over every interleaving of any number of threads; a test run exercises a handful of schedules and cannot force the bad one.", "anchors": ["include/boost/thread/pthread/condition_variable.hpp: condition_variable", "include/boost/thread/pthread/thread_data.hpp: interruption_checker", "src/pthread/thread.cpp: thread::interrupt, interruption_point"]}
{"id": "C41", "title": "a thread waiting on a condition variable when interrupted wakes up", "statement": "interrupt() on a thread that is inside an interruptible condition variable wait makes it return, for every timing of the call relative to the wait.", "quantifier": "all schedules", "why_tests_cant": "The window between registering the wait and sleeping must be closed in every interleaving.", "anchors": ["include/boost/thread/pthread/condition_variable.hpp: condition_variable", "include/boost/thread/pthread/thread_data.hpp: interruption_checker", "src/pthread/thread.cpp: thread::interrupt, interruption_point"]}
{"id": "C42", "title": "join returns only after the thread function has ended and joins at most once at OS level", "statement": "join()/try_join return success only after the thread function and its exit handlers have finished; whatever the number of concurrent joiners, the OS thread is joined or detached exactly once.", "quantifier": "all schedules, any number of joiners", "why_tests_cant": "The claim ranges over every interleaving of any number of threads; a test run exercises a handful of schedules and cannot force the bad one.", "anchors": ["src/pthread/thread.cpp: thread_proxy, join_noexcept, do_try_join_until_noexcept, detach, tls_destructor", "include/boost/thread/pthread/thread_data.hpp: thread_data_base"]}
{"id": "C43", "title": "thread_specific_ptr cleans up every value exactly once", "statement": "Each non-null pointer installed with reset() is passed to the cleanup function exactly once (on replacement, reset or thread exit) unless it was release()d; values installed by cleanup functions during thread exit are cleaned up too.", "quantifier": "all operation sequences, any number of keys and threads, any behaviour of the cleanup functions that terminates", "why_tests_cant": "Unbounded histories and re-entrant cleanup.", "anchors": ["include/boost/thread/tss.hpp: thread_specific_ptr", "src/pthread/thread.cpp: set_tss_data, get_tss_data, run_thread_exit_callbacks/tls_destructor 88-122, 719-787"]}
{"id": "C44", "title": "at_thread_exit functions run exactly once, before joiners are released", "statement": "Every function registered with at_thread_exit runs exactly once when the thread ends, including those registered by other exit functions.", "quantifier": "all registration histories", "why_tests_cant": "Re-entrant registration.", "anchors": ["src/pthread/thread.cpp: thread_proxy, join_noexcept, do_try_join_until_noexcept, detach, tls_destructor", "include/boost/thread/pthread/thread_data.hpp: thread_data_base"]}
{"id": "C45", "title": "a future becomes ready at most once and its outcome never changes", "statement": "Once a shared state is ready, every wait/get by every thread observes the same outcome, namely the one given by the first successful set_value/set_exception; later attempts throw promise_already_satisfied.", "quantifier": "all schedules of promise and future operations (without the *_deferred/at_thread_exit entry points)", "why_tests_cant": "The claim ranges over every interleaving of any number of threads; a test run exercises a handful of schedules and cannot force the bad one.", "anchors": ["include/boost/thread/future.hpp: detail::shared_state_base, shared_state, promise, future, shared_future"]}
{"id": "C46", "title": "every thread waiting for a future is released when it becomes ready", "statement": "When no thread can step on its own and the promise is satisfied or destroyed, no thread is blocked in wait/get/wait_for on the future.", "quantifier": "all schedules", "why_tests_cant": "Lost wake-up argument.", "anchors": ["include/boost/thread/future.hpp: detail::shared_state_base, shared_state, promise, future, shared_future"]}
{"id": "C47", "title": "a promise that goes away unsatisfied breaks its future", "statement": "If a promise is destroyed, or its shared state abandoned by assignment, before being satisfied, the future becomes ready with broken_promise.", "quantifier": "all ways a promise can abandon a state", "why_tests_cant": "Assignment over a promise is a rare path.", "anchors": ["include/boost/thread/future.hpp: promise::~promise 2308-2319, promise::operator= 2328-2335"]}
{"id": "C48", "title": "deferred-notification setters keep the single-assignment guarantee", "statement": "set_value_at_thread_exit/set_exception_at_thread_exit and the *_deferred setters store at most one outcome and throw promise_already_satisfied if one is already stored.", "quantifier": "all call sequences", "why_tests_cant": "Only sequences mixing the entry points show it.", "anchors": ["include/boost/thread/future.hpp: set_value_at_thread_exit 708-747, set_exception_deferred 464, promise::set_value_at_thread_exit"]}
{"id": "C49", "title": "future::get hands out the result exactly once", "statement": "A unique future's get returns the stored value or throws the stored exception once; afterwards the future is not valid and get throws future_uninitialized.", "quantifier": "all call sequences", "why_tests_cant": "All call orders.", "anchors": ["include/boost/thread/future.hpp: future<R>::get 1790-1805"]}
{"id": "C50", "title": "get_or never throws the stored exception", "statement": "future/shared_future get_or(v) returns the value if there is one and v if the future holds an exception.", "quantifier": "all outcomes", "why_tests_cant": "The shared_future overload differs from the unique one.", "anchors": ["include/boost/thread/future.hpp: future::get_or 1807-1857, shared_future::get_or 2228-2239"]}
{"id": "C51", "title": "a continuation attached with then runs exactly once, after its parent is ready", "statement": "Whatever the order of then() and the completion of the parent, each continuation is launched exactly once and only when the parent is ready.", "quantifier": "all schedules and numbers of continuations", "why_tests_cant": "Race between attaching and completing.", "anchors": ["include/boost/thread/future.hpp: set_continuation_ptr 327-333, do_continuation 304-315, mark_finished_internal 335-345"]}
{"id": "C52", "title": "waiting on a continuation of a deferred future returns", "statement": "For every launch policy passed to then/unwrap, waiting for the resulting future makes progress, also if the parent future is deferred.", "quantifier": "all launch policies of parent and continuation", "why_tests_cant": "Needs the combination deferred parent and non-deferred continuation.", "anchors": ["include/boost/thread/future.hpp: then 4979-5042, future_sync_continuation_shared_state, future_unwrap_shared_state"]}
{"id": "C53", "title": "a packaged_task runs at most once and its reset gives a fresh result", "statement": "A packaged_task invokes its function at most once between resets, a second invocation throws task_already_started; after reset() the future obtained is not ready until the task runs again.", "quantifier": "all call sequences", "why_tests_cant": "The reset path only shows after a completed run.", "anchors": ["include/boost/thread/future.hpp: task_base_shared_state 2963-3032, packaged_task 3504-3810"]}
{"id": "C54", "title": "a deferred async function runs exactly once, in the first thread that waits", "statement": "The function of a deferred future is invoked at most once and is invoked by the first wait/get; timed waits report deferred without running it.", "quantifier": "all schedules of waiters", "why_tests_cant": "The claim ranges over every interleaving of any number of threads; a test run exercises a handful of schedules and cannot force the bad one.", "anchors": ["include/boost/thread/future.hpp: future_deferred_shared_state 1044-1118, wait_internal 387-400"]}
{"id": "C55", "title": "wait_for_any returns a ready future and terminates", "statement": "wait_for_any returns an index of a future that is ready; concurrent calls on overlapping sets never deadlock each other.", "quantifier": "all argument orders and schedules", "why_tests_cant": "Opposite argument orders in two threads are needed.", "anchors": ["include/boost/thread/future.hpp: future_waiter 1120-1227", "include/boost/thread/futures/wait_for_any.hpp: waiter_for_any_in_seq"]}
{"id": "C56", "title": "make_shared_future() / make_ready_future return futures with the requested result", "statement": "make_ready_future(v) is ready with v, make_exceptional_future(e) is ready with e, make_shared_future() is ready with a value.", "quantifier": "all values", "why_tests_cant": "The void overload is not covered by the others.", "anchors": ["include/boost/thread/future.hpp: make_ready_future 4358-4413, make_shared_future 4458-4469"]}
{"id": "C57", "title": "a thread pool runs every accepted closure exactly once", "statement": "Every closure accepted by submit runs exactly once, on one worker; after close() and join() all accepted closures have run.", "quantifier": "all numbers of workers and submitters, all schedules, closures that do not get interrupted", "why_tests_cant": "The claim ranges over every interleaving of any number of threads; a test run exercises a handful of schedules and cannot force the bad one.", "anchors": ["include/boost/thread/executors/basic_thread_pool.hpp: basic_thread_pool"]}
{"id": "C58", "title": "destroying a thread pool runs all accepted closures", "statement": "The destructor completes only after every accepted closure has run.", "quantifier": "all schedules", "why_tests_cant": "The interruption sent by the destructor must hit a closure at an interruption point.", "anchors": ["include/boost/thread/executors/basic_thread_pool.hpp: basic_thread_pool"]}
{"id": "C59", "title": "serial_executor runs closures one at a time in submission order", "statement": "Closures submitted to a serial_executor run in submission order without overlap, each exactly once.", "quantifier": "all underlying executors that run what they accept, all schedules", "why_tests_cant": "The claim ranges over every interleaving of any number of threads; a test run exercises a handful of schedules and cannot force the bad one.", "anchors": ["include/boost/thread/executors/serial_executor.hpp", "include/boost/thread/executors/serial_executor_cont.hpp"]}
{"id": "C60", "title": "loop_executor runs every closure exactly once, in order", "statement": "Closures submitted to a loop_executor are run by loop()/run_queued_closures() exactly once, in submission order.", "quantifier": "all call sequences", "why_tests_cant": "Requires loops after partial consumption.", "anchors": ["include/boost/thread/executors/loop_executor.hpp"]}
{"id": "C61", "title": "scheduled executors never run a task before its time", "statement": "A task submitted with submit_at/submit_after starts only when the clock has reached its time, and tasks that are due start in time order.", "quantifier": "all clocks and schedules", "why_tests_cant": "Depends on clock readings.", "anchors": ["include/boost/thread/executors/detail/scheduled_executor_base.hpp", "include/boost/thread/executors/detail/priority_executor_base.hpp"]}
{"id": "C62", "title": "platform_duration / timespec conversions are exact and normalised", "statement": "Converting nanoseconds to timespec and back is the identity, the nanosecond field is in [0, 10^9), and rounding to milliseconds never shortens a wait.", "quantifier": "all 64-bit values", "why_tests_cant": "All integers; negative values are the interesting ones.", "anchors": ["include/boost/thread/detail/platform_time.hpp: ns_to_timespec, timespec_to_ns, getMs"]}
{"id": "C63", "title": "thread_group keeps each thread exactly once and joins all", "statement": "add_thread rejects a thread already in the group, remove_thread removes it, size() counts them, join_all returns after all have ended.", "quantifier": "all schedules of concurrent add/remove", "why_tests_cant": "The membership test and the insertion are separate steps.", "anchors": ["include/boost/thread/detail/thread_group.hpp: thread_group"]}
{"id": "C64", "title": "parsing of CPU information accepts exactly decimal numbers", "statement": "string_to_unsigned succeeds exactly on non-empty strings of decimal digits whose value fits in unsigned, and yields that value.", "quantifier": "all strings", "why_tests_cant": "All strings, in particular around the overflow boundary.", "anchors": ["include/boost/thread/detail/string_to_unsigned.hpp: string_to_unsigned"]}
{"id": "C65", "title": "sync_timed_queue::pull_until is well defined for every clock", "statement": "pull_until on any queue either delivers an element or returns a status; in particular it never touches a non-existent element, also when the clock is set back while it waits.", "quantifier": "all clocks (steady or not), schedules and contents", "why_tests_cant": "Needs a clock adjustment between two specific instructions.", "anchors": ["include/boost/thread/concurrent_queues/sync_timed_queue.hpp: wait_to_pull_until, pull_until"]}
{"id": "C66", "title": "a throwing barrier completion function does not strand the group", "statement": "When the completion function of a barrier throws in the last arriving thread, the exception reaches that thread only and the other threads of the group are still released.", "quantifier": "all schedules, group sizes and completion functions", "why_tests_cant": "Depends on which threads sleep when the exception is thrown.", "anchors": ["include/boost/thread/barrier.hpp: barrier::wait, barrier::count_down_and_wait"]}
{"id": "C67", "title": "thread_v2: a blocked thread waits for an owner", "statement": "When no thread can run, every thread blocked in an untimed or shared/upgrade operation of a thread_v2 mutex waits for another thread that owns the mutex and is not itself blocked; a blocked reader waits for an exclusive owner or for a waiting writer; and running threads always come to rest.", "quantifier": "all schedules of programs without timed attempts at exclusive ownership, any number of threads up to the reader limit", "why_tests_cant": "Lost wake-ups depend on which waiter a notify_one hits.", "anchors": ["include/boost/thread/v2/shared_mutex.hpp: thread_v2::shared_mutex, thread_v2::upgrade_mutex"]}
{"id": "C68", "title": "physical_concurrency counts distinct cores", "statement": "For a /proc/cpuinfo that gives every processor's package and core ids, thread::physical_concurrency() is the number of distinct (package, core) pairs, whatever other lines the file has; for a file without such lines, or with a line that has no colon, it is hardware_concurrency().", "quantifier": "all files", "why_tests_cant": "All inputs, in particular blanks around keys and values and repeated ids.", "anchors": ["src/pthread/thread.cpp: thread::physical_concurrency", "include/boost/thread/detail/string_trim.hpp: string_trim"]}
{"id": "C69", "title": "condition_variable notifications are not lost", "statement": "notify_all() wakes every thread that had released its mutex in a wait on that condition variable when it was called, and notify_one() at least one of them, before they return; a notification given to a thread that leaves its wait with thread_interrupted is not lost to the others.", "quantifier": "all numbers of threads and condition variables, all interleavings of waits, notifications and interruptions at the granularity of single mutex operations", "why_tests_cant": "The window between releasing the user's mutex and blocking, and the one between waking and the interruption check, are a few instructions wide; tests do not hit them", "anchors": ["include/boost/thread/pthread/condition_variable.hpp: condition_variable::wait, notify_one, notify_all", "include/boost/thread/pthread/thread_data.hpp: interruption_checker"]}
{"id": "C70", "title": "disable_interruption and restore_interruption nest", "statement": "this_thread::interruption_enabled() is false inside a disable_interruption scope, is what it was before that scope inside a restore_interruption scope naming it, and the end of every scope brings back what was in force before the scope.", "quantifier": "all sequences of nested scopes of any depth in any thread, interleaved with anything the other threads do", "why_tests_cant": "Nesting depth and order are unbounded; tests try two or three levels", "anchors": ["src/pthread/thread.cpp: disable_interruption, restore_interruption", "include/boost/thread/detail/thread_interruption.hpp"]}
{"id": "C71", "title": "Actions registered for thread exit happen when the thread exits", "statement": "notify_all_at_thread_exit unlocks the mutex and notifies, and a promise set with set_value_at_thread_exit becomes ready, exactly once and when the thread that asked for it ends.", "quantifier": "all schedules of the ending thread against any number of joins, timed joins, detaches and interruptions of them on the boost::thread object", "why_tests_cant": "The moment depends on the order in which the last shared_ptr reference to the thread data is dropped; the tests detach the thread at once", "anchors": ["src/pthread/thread.cpp: ~thread_data_base, thread_proxy, notify_all_at_thread_exit, join_noexcept, detach", "include/boost/thread/future.hpp: set_value_at_thread_exit"]}
{"id": "C72", "title": "serial_executor_cont runs closures one at a time in submission order, and its destructor waits for them", "statement": "Closures submitted to a serial_executor_cont run in submission order without overlap, each exactly once; a submission after close is refused; when the destructor returns every accepted closure has completed.", "quantifier": "all numbers of submitting threads and of threads of the underlying executor, all schedules", "why_tests_cant": "A test sees some interleavings of submissions with the completion of the previous closure; the claim is about all of them.", "anchors": ["include/boost/thread/executors/serial_executor_cont.hpp: serial_executor_cont", "include/boost/thread/future.hpp: then, future_executor_continuation_shared_state"]}
{"id": "C73", "title": "Windows: a mutex has at most one owner", "statement": "At no time do two threads own a mutex, try_mutex or timed_mutex on Windows, whichever of lock, try_lock, timed_lock, try_lock_for and try_lock_until they used; try_lock fails only if a thread owns the mutex at that moment.", "quantifier": "all numbers of threads and all interleavings of the single interlocked operations and waits of all calls, deadlines passing at any time", "why_tests_cant": "The algorithm is lock-free code on one word; the bad interleavings, if any, are a few instructions wide", "anchors": ["include/boost/thread/win32/basic_timed_mutex.hpp: try_lock, lock, do_lock_until, mark_waiting_and_try_lock, clear_waiting_and_try_lock, unlock", "include/boost/thread/win32/mutex.hpp: mutex, timed_mutex"]}
{"id": "C74", "title": "Windows: nobody is left waiting for a free mutex", "statement": "When no thread can take a step, a thread blocked in lock or in a timed lock of a Windows mutex waits for another thread that owns it; timed locks that give up take no wake-up with them, and do not stay counted as waiting.", "quantifier": "all numbers of threads, all interleavings, deadlines passing at any time", "why_tests_cant": "A lost wake-up needs a timeout to fall between the release of the mutex and the signalling of the event", "anchors": ["include/boost/thread/win32/basic_timed_mutex.hpp: try_lock, lock, do_lock_until, mark_waiting_and_try_lock, clear_waiting_and_try_lock, unlock", "include/boost/thread/win32/mutex.hpp: mutex, timed_mutex"]}
{"id": "C75", "title": "Windows: a mutex can be destroyed once it is free", "statement": "When no thread owns a Windows mutex, nobody waits for it, and the last owner has returned from unlock, no earlier call of unlock accesses the mutex any more, so that the last owner may destroy it.", "quantifier": "all schedules of any number of threads", "why_tests_cant": "The window is one instruction of a suspended thread", "anchors": ["include/boost/thread/win32/basic_timed_mutex.hpp: try_lock, lock, do_lock_until, mark_waiting_and_try_lock, clear_waiting_and_try_lock, unlock", "include/boost/thread/win32/mutex.hpp: mutex, timed_mutex"]}
{"id": "C76", "title": "Windows: recursive mutexes", "statement": "A recursive_mutex or recursive_timed_mutex on Windows has at most one owner; the owner's further calls succeed without waiting; it is free exactly if every thread has unlocked it as often as it locked it; nobody is left waiting for a free mutex.", "quantifier": "all numbers of threads, all interleavings, all nesting depths up to the range of the counter", "why_tests_cant": "The owner's identity is read without holding the lock; depth and schedules are unbounded", "anchors": ["include/boost/thread/win32/basic_recursive_mutex.hpp: basic_recursive_mutex_impl", "include/boost/thread/win32/recursive_mutex.hpp"]}
{"id": "C77", "title": "Windows: notify_one wakes a thread that was waiting", "statement": "With the Windows condition variable, a call of notify_one while a thread waits wakes at least one of the threads that were waiting at the time of the call, and no wait returns as woken without a notification that has not been used for another wait.", "quantifier": "all numbers of threads, all interleavings of waits, timed waits, notifications, timeouts and interruptions", "why_tests_cant": "The wake-up is lost only if threads that start to wait later, in at least two further generations, run before the notified thread reacts.", "anchors": ["include/boost/thread/win32/condition_variable.hpp: basic_condition_variable::notify_one, do_wait_until, get_wait_entry"]}
{"id": "C78", "title": "Windows: notify_all wakes every thread that was waiting", "statement": "With the Windows condition variable, every thread that waits when notify_all is called returns from its wait.", "quantifier": "all numbers of threads, all interleavings of waits, timed waits, notifications, timeouts and interruptions", "why_tests_cant": "Depends on notifications not yet consumed and on which threads take the shared semaphore first.", "anchors": ["include/boost/thread/win32/condition_variable.hpp: basic_condition_variable::notify_all, do_wait_until, get_wait_entry"]}
{"id": "C79", "title": "when_all: its future holds all the futures, ready, in order", "statement": "The future returned by when_all becomes ready only when every future given to the call is ready, and its value is then all of them in the order given; it never holds an exception; it does become ready once they all are.", "quantifier": "all numbers of futures (deferred, pending, ready, shared with other threads), all interleavings of the call, its thread and the threads that complete the futures", "why_tests_cant": "Number of futures and the moments at which other threads complete or execute them are unbounded", "anchors": ["include/boost/thread/future.hpp: when_all, when_any, future_when_all_vector_shared_state, future_when_all_tuple_shared_state, future_when_any_vector_shared_state, future_when_any_tuple_shared_state, accumulate_run_if_is_deferred, apply_any_run_if_is_deferred_or_ready"]}
{"id": "C80", "title": "when_all executes deferred functions before it returns, once, and waits for nothing else", "statement": "Every deferred function among the futures given to when_all has been executed, or begun by another thread, when the call returns; none is executed twice; the call does not wait for the other futures.", "quantifier": "all numbers of futures, all positions of deferred ones, all interleavings", "why_tests_cant": "Depends on the mix of deferred and other futures and on the overload", "anchors": ["include/boost/thread/future.hpp: when_all, when_any, future_when_all_vector_shared_state, future_when_all_tuple_shared_state, future_when_any_vector_shared_state, future_when_any_tuple_shared_state, accumulate_run_if_is_deferred, apply_any_run_if_is_deferred_or_ready"]}
{"id": "C81", "title": "when_any: first ready or deferred future in the order supplied", "statement": "when_any checks the futures in the order supplied and stops at the first that is ready or deferred, executing only that deferred function; its future is then ready when the call returns; otherwise it becomes ready as soon as one of the futures is; it holds all the futures in order; the call does not wait.", "quantifier": "all numbers of futures, all interleavings", "why_tests_cant": "Depends on the mix of futures, on the overload and on the moments at which other threads complete them", "anchors": ["include/boost/thread/future.hpp: when_all, when_any, future_when_all_vector_shared_state, future_when_all_tuple_shared_state, future_when_any_vector_shared_state, future_when_any_tuple_shared_state, accumulate_run_if_is_deferred, apply_any_run_if_is_deferred_or_ready"]}
{"id": "C82", "title": "when_all and when_any throw when no thread can be started", "statement": "If when_all or when_any needs a thread and it cannot be started, the call throws (thread_resource_error).", "quantifier": "all futures, all interleavings, both overloads, every BOOST_THREAD_VERSION that provides them", "why_tests_cant": "Thread creation fails only when resources are exhausted; the failure shows as a hang", "anchors": ["include/boost/thread/future.hpp: when_all, when_any, future_when_all_vector_shared_state, future_when_all_tuple_shared_state, future_when_any_vector_shared_state, future_when_any_tuple_shared_state, accumulate_run_if_is_deferred, apply_any_run_if_is_deferred_or_ready", "include/boost/thread/future.hpp: future_async_shared_state_base::~future_async_shared_state_base"]}
{"id": "C83", "title": "async with launch::async runs the function once and hands out its outcome", "statement": "async(launch::async, f) runs f exactly once on a new thread; wait and get on its futures return only after f has ended, with what f returned or threw; every waiter is released once f has ended; the shared state is destroyed exactly once, after the last future is gone and f has ended, and never used afterwards", "quantifier": "all interleavings of the new thread and any number of threads that copy, wait for and drop futures, all outcomes, all configurations", "why_tests_cant": "The state is shared by reference counting; a use after free or a double free depends on the order in which the last owners let go", "anchors": ["include/boost/thread/future.hpp: async", "include/boost/thread/future.hpp: future_async_shared_state", "include/boost/thread/future.hpp: make_future_async_shared_state"]}
{"id": "C84", "title": "The last future of async waits in its destructor", "statement": "the destructor of the last future returned by async(launch::async, f) returns only after f has ended, as documented", "quantifier": "all interleavings, all configurations", "why_tests_cant": "A test can see that one destructor blocked, not that every one does", "anchors": ["include/boost/thread/future.hpp: async", "include/boost/thread/future.hpp: future_async_shared_state", "include/boost/thread/future.hpp: make_future_async_shared_state", "doc/future_ref.qbk"]}
{"id": "C85", "title": "async throws when it cannot start its thread", "statement": "if the thread of async(launch::async, f) cannot be started, the call throws; f is not run and the state is destroyed", "quantifier": "all interleavings, every BOOST_THREAD_VERSION", "why_tests_cant": "Thread creation fails only when resources are exhausted; the failure shows as a hang", "anchors": ["include/boost/thread/future.hpp: async", "include/boost/thread/future.hpp: future_async_shared_state", "include/boost/thread/future.hpp: make_future_async_shared_state"]}
{"id": "C86", "title": "async honours the launch policy", "statement": "async with a policy that includes launch::async starts a thread; with launch::deferred alone it returns a future whose function runs on the first wait", "quantifier": "every combination of policy bits, every configuration", "why_tests_cant": "The overloads differ by configuration, and each configuration has to be compiled separately", "anchors": ["include/boost/thread/future.hpp: async", "include/boost/thread/future.hpp: future_async_shared_state", "include/boost/thread/future.hpp: make_future_async_shared_state", "include/boost/thread/futures/launch.hpp: launch"]}
{"id": "C87", "title": "Timed waits do not time out early", "statement": "wait_until, wait_for, timed_wait, try_lock_until, try_lock_for, try_join_until and try_join_for report a time-out only when the clock of the call has reached the given time (or the duration has elapsed since the call), however that clock is set forward and back meanwhile; with a predicate the result is the predicate's last value; try_ functions make at least one attempt and return true exactly when it succeeded.", "quantifier": "all times, durations, clock readings, predicates and wake-ups", "why_tests_cant": "clock jumps at every point of a loop with several clock reads cannot be arranged by a test", "anchors": ["include/boost/thread/pthread/condition_variable_fwd.hpp: wait_until, wait_for, timed_wait", "include/boost/thread/pthread/mutex.hpp: timed_mutex::try_lock_until, try_lock_for", "include/boost/thread/detail/thread.hpp: try_join_until, try_join_for"]}
{"id": "C88", "title": "A clock that is set forward ends a timed wait soon", "statement": "When the clock of the call is set so that it shows the given time, wait_until and timed_wait, try_lock_until, try_join_until and sleep_until return within the polling interval of 100 ms plus the latency of the system.", "quantifier": "all times, clocks and latencies", "why_tests_cant": "needs every point of the loop at which the clock may be set and unbounded latencies", "anchors": ["include/boost/thread/pthread/condition_variable_fwd.hpp: wait_until, timed_wait", "include/boost/thread/pthread/mutex.hpp: timed_mutex::try_lock_until", "include/boost/thread/detail/thread.hpp: try_join_until", "include/boost/thread/pthread/thread_data.hpp: sleep_until"]}
{"id": "C89", "title": "Sleeps last at least as long as asked for", "statement": "this_thread::sleep_for and sleep_until, and the functions of this_thread::no_interruption_point with the same names, return only after the duration has elapsed or the time has been reached, unless the sleep is interrupted.", "quantifier": "all times, durations, clocks, spurious wake-ups and signals", "why_tests_cant": "signals and spurious wake-ups at every moment cannot be produced by a test", "anchors": ["include/boost/thread/pthread/thread_data.hpp: sleep_for, sleep_until", "src/pthread/thread.cpp: sleep_for_internal"]}
{"id": "C90", "title": "timed_wait with a duration returns true only when woken", "statement": "condition_variable::timed_wait with a duration returns true only when the thread was woken, and false only after the duration has elapsed; with a predicate it returns the predicate's value and waits for ever when the duration is positive infinity.", "quantifier": "all durations including the special values, all predicates", "why_tests_cant": "special values of the duration are rarely tested and there are four cases times every interleaving", "anchors": ["include/boost/thread/pthread/condition_variable_fwd.hpp: timed_wait"]}
{"id": "C91", "title": "Timed calls work for all times", "statement": "A timed call given a time in the past, however far, times out (after one attempt), and one given a time far in the future or the largest duration waits: no call throws, hangs or has undefined behaviour because of the value of its time argument.", "quantifier": "all 64-bit times and durations and all clock readings", "why_tests_cant": "the boundary depends on the uptime of the machine", "anchors": ["include/boost/thread/pthread/mutex.hpp: timed_mutex::do_try_lock_until", "include/boost/thread/pthread/condition_variable.hpp: do_wait_until", "include/boost/thread/detail/platform_time.hpp: ns_to_timespec, operator+"]}
{"id": "C92", "title": "task_region joins all its tasks", "statement": "task_region returns, normally or with an exception, only after every task spawned in it with run, and every task spawned by those in nested regions, has ended; no task ends twice and none is spawned in a region that has returned.", "quantifier": "all bodies, nestings, failures and schedules", "why_tests_cant": "a join that misses one of many tasks under one interleaving is not seen by a test", "anchors": ["include/boost/thread/experimental/parallel/v2/task_region.hpp: task_region, task_region_handle_gen::run, wait_all"]}
{"id": "C93", "title": "task_region reports each exception once", "statement": "task_region throws exactly when its body or one of its tasks threw something other than the cancellation exception; the exception_list then contains the exceptions of the body and of all the tasks (lists from nested regions flattened), each exactly once.", "quantifier": "all bodies, nestings, failures and schedules", "why_tests_cant": "combinations of failing tasks, nested lists and waits are unbounded", "anchors": ["include/boost/thread/experimental/parallel/v2/task_region.hpp: wait_all, handle_task_region_exceptions"]}
{"id": "C94", "title": "A failed task cancels its region", "statement": "After a task of a region has ended with an exception no further task is started in that region: run throws instead.", "quantifier": "all bodies, failures and schedules", "why_tests_cant": "depends on the order of every failure and every run", "anchors": ["include/boost/thread/experimental/parallel/v2/task_region.hpp: run, detail::wrapped"]}
{"id": "C95", "title": "task_region always returns", "statement": "When all tasks end, task_region returns: also with nested regions, with failing tasks and with a given executor.", "quantifier": "all bodies, nestings, executors and schedules", "why_tests_cant": "deadlocks depend on the number of workers and on the schedule", "anchors": ["include/boost/thread/experimental/parallel/v2/task_region.hpp: task_region, wait_all", "include/boost/thread/executors/basic_thread_pool.hpp"]}
{"id": "C96", "title": "thread_executor runs every accepted closure once and its destructor waits", "statement": "Every closure that thread_executor::submit accepts runs exactly once; when the destructor of the executor returns, all of them have returned; submit throws sync_queue_is_closed exactly after close, and closed() reports it.", "quantifier": "all programs of user threads and closures (which may submit further closures), all schedules", "why_tests_cant": "a closure may submit at any moment, also while the executor is being closed or destroyed", "anchors": ["include/boost/thread/executors/thread_executor.hpp: submit, close, closed, ~thread_executor", "include/boost/thread/scoped_thread.hpp: ~scoped_thread"]}
{"id": "C97", "title": "thread_executor can be used by its closures until they return", "statement": "No closure waits for another one; every program ends, with the destructor of the executor returning; and while a closure runs it may use the executor it runs on (submit, closed), also when the destructor is already waiting for it.", "quantifier": "all programs of user threads and closures, all schedules", "why_tests_cant": "the window between the destruction of a member and the end of the threads is open in few schedules only", "anchors": ["include/boost/thread/executors/thread_executor.hpp: ~thread_executor, threads_, mtx_", "include/boost/thread/scoped_thread.hpp: ~scoped_thread"]}
{"id": "C98", "title": "inline_executor runs a closure within submit", "statement": "inline_executor::submit runs its closure exactly once, on the calling thread, before it returns; closures may submit further closures to any depth without blocking; submit throws sync_queue_is_closed exactly after close.", "quantifier": "all programs of user threads and closures, all schedules", "why_tests_cant": "the interleaving of close with submissions of other threads and any depth of nesting", "anchors": ["include/boost/thread/executors/inline_executor.hpp: submit, close, closed"]}
{"id": "C99", "title": "A thread is represented by at most one object", "statement": "From its creation until it is joined or detached a thread is represented by exactly one thread or scoped_thread object, however objects are moved, swapped, passed to other threads and destroyed, and afterwards by none; it is joined or detached at most once; join returns only after the thread has ended.", "quantifier": "all programs of threads that create threads and move, swap, assign, pass, guard, join and detach their objects, all schedules, failures and interruptions", "why_tests_cant": "ownership moves between any number of scopes and threads", "anchors": ["include/boost/thread/detail/thread.hpp: thread, ~thread, operator=, swap, join", "src/pthread/thread.cpp: join_noexcept, detach, start_thread_noexcept", "include/boost/thread/scoped_thread.hpp: scoped_thread, strict_scoped_thread"]}
{"id": "C100", "title": "scoped_thread and thread_guard do what their functor says", "statement": "When the destructor of a scoped_thread, strict_scoped_thread or thread_guard returns, or a move assignment to a scoped_thread, the thread that the object represented has ended (join_if_joinable; interrupt_and_join_if_joinable, after an interruption request) or is detached (detach); thread_interrupted is never thrown by such a destructor, and afterwards interruption is enabled or disabled as before.", "quantifier": "all programs, schedules, failures, interruptions at any moment", "why_tests_cant": "an interruption may be requested at any moment, also while a destructor runs during unwinding", "anchors": ["include/boost/thread/scoped_thread.hpp: ~scoped_thread, ~strict_scoped_thread, operator=", "include/boost/thread/thread_guard.hpp: ~thread_guard", "include/boost/thread/thread_functors.hpp: join_if_joinable, interrupt_and_join_if_joinable, detach"]}
{"id": "C101", "title": "Programs of joining scoped_threads are structured", "statement": "If all threads belong to scoped_threads whose functor joins, a thread ends only after all threads that it created, directly or not, have ended, so all threads have ended when main has; and such a program is never terminated abnormally if it handles failures of thread creation.", "quantifier": "all such programs with any nesting, all schedules, failures and interruptions", "why_tests_cant": "any depth of nesting, with exceptions and interruptions at any point", "anchors": ["include/boost/thread/scoped_thread.hpp: ~scoped_thread, ~strict_scoped_thread, operator=", "include/boost/thread/thread_guard.hpp: ~thread_guard", "include/boost/thread/thread_functors.hpp: join_if_joinable, interrupt_and_join_if_joinable, detach", "include/boost/thread/detail/thread.hpp: thread, ~thread, operator=, swap, join", "src/pthread/thread.cpp: join_noexcept, detach, start_thread_noexcept"]}
{"id": "C102", "title": "Joins do not deadlock when objects are handed down only", "statement": "If thread objects are passed only to new threads (not through shared variables), no thread ever joins itself and joins never deadlock: every run is finite and ends with all threads ended, unless the program is terminated.", "quantifier": "all such programs, all schedules", "why_tests_cant": "the absence of cycles holds for every history of moves", "anchors": ["include/boost/thread/detail/thread.hpp: thread, ~thread, operator=, swap, join", "src/pthread/thread.cpp: join_noexcept, detach, start_thread_noexcept"]}
{"id": "C103", "title": "Threads are never abandoned silently", "statement": "std::terminate is called only when a joinable thread is destroyed or assigned to (BOOST_THREAD_VERSION 3 and later), when a destructor would join its own thread, or when a failure of thread creation or a self-join is not handled; and in these versions no thread is detached unless the program says so.", "quantifier": "all programs, schedules and failures, both settings", "why_tests_cant": "every path on which an object may be destroyed, exceptions included", "anchors": ["include/boost/thread/detail/thread.hpp: thread, ~thread, operator=, swap, join", "src/pthread/thread.cpp: join_noexcept, detach, start_thread_noexcept", "include/boost/thread/scoped_thread.hpp: ~scoped_thread, ~strict_scoped_thread, operator=", "include/boost/thread/thread_guard.hpp: ~thread_guard", "include/boost/thread/thread_functors.hpp: join_if_joinable, interrupt_and_join_if_joinable, detach"]}
{"id": "C104", "title": "Windows shared_mutex: exclusion", "statement": "On Windows, no two threads ever hold incompatible locks of a shared_mutex (an exclusive lock together with any other, or two upgrade locks), whatever is called: lock, try_lock, timed locks, shared and upgrade locks and the conversions between them, during which what both modes have in common is held throughout; and try_lock fails only if another thread holds the mutex, or is releasing it, at some moment of the call.", "quantifier": "any number of threads, all sequences of calls, all schedules of the single compare-and-exchange and semaphore operations, all time-outs", "why_tests_cant": "exclusion must survive every interleaving of compare-and-exchange loops, and the fields' limits", "anchors": ["include/boost/thread/win32/shared_mutex.hpp: shared_mutex"]}
{"id": "C105", "title": "Windows shared_mutex: no lost wake-ups", "statement": "On Windows, a thread never stays blocked in a call on a shared_mutex that nobody holds: whenever no thread can go on, a blocked thread implies another thread that holds the mutex and is not in a call.", "quantifier": "any number of threads, all sequences of calls, all schedules, all time-outs", "why_tests_cant": "wake-ups are anonymous semaphore tokens which any thread may take at any moment", "anchors": ["include/boost/thread/win32/shared_mutex.hpp: shared_mutex"]}
{"id": "C106", "title": "Windows shared_mutex: readers wait for writers only", "statement": "On Windows, a thread stays blocked in lock_shared only while another thread holds an exclusive lock or waits for one.", "quantifier": "any number of threads, all sequences of calls, all schedules, all time-outs", "why_tests_cant": "depends on who takes which token when", "anchors": ["include/boost/thread/win32/shared_mutex.hpp: shared_mutex"]}
{"id": "C107", "title": "Windows shared_mutex: lock_error only when the counters are full", "statement": "On Windows, lock throws lock_error only if at some moment of the call more than 127 threads are in lock, and lock_shared only if more than 2047 threads hold the mutex or are in calls on it.", "quantifier": "any number of threads, all histories and schedules", "why_tests_cant": "the counters may drift from the number of threads over long histories", "anchors": ["include/boost/thread/win32/shared_mutex.hpp: shared_mutex"]}
{"id": "C108", "title": "Windows: call_once executes the function to completion exactly once", "statement": "On Windows, for each flag the function returns normally at most once and executions do not overlap; call_once returns normally only after the function has returned, and throws only what the function has thrown in the same call.", "quantifier": "any number of threads calling call_once on one flag any number of times, functions that return or throw, all schedules", "why_tests_cant": "the flag, the count and a named event are changed one by one by several threads", "anchors": ["include/boost/thread/win32/once.hpp: call_once, enter_once_region, commit_once_region, rollback_once_region"]}
{"id": "C109", "title": "Windows: call_once leaves nobody behind", "statement": "On Windows, a thread in call_once waits only while another thread executes the function; after an exception the next caller executes the function; once one call has returned normally all others return after a bounded number of steps.", "quantifier": "any number of threads, all schedules, all patterns of exceptions", "why_tests_cant": "a lost SetEvent shows up only in rare interleavings", "anchors": ["include/boost/thread/win32/once.hpp: call_once, enter_once_region, commit_once_region, rollback_once_region"]}
{"id": "C110", "title": "Windows: call_once waits asleep", "statement": "On Windows, a thread that waits in call_once for another thread that executes the function takes a bounded number of steps, i.e. it does not use the processor.", "quantifier": "any number of threads, all schedules, functions that return or throw", "why_tests_cant": "busy waiting does not change results", "anchors": ["include/boost/thread/win32/once.hpp: call_once, enter_once_region, commit_once_region, rollback_once_region"]}
{"id": "C111", "title": "Windows: flags of call_once do not interfere", "statement": "On Windows, the named events used for different flags, or by different processes, have different names.", "quantifier": "all addresses and process ids", "why_tests_cant": "infinitely many pairs of addresses", "anchors": ["include/boost/thread/win32/once.hpp: int_to_string, name_once_mutex"]}
{"id": "C112", "title": "Windows: interruption requests are delivered exactly once", "statement": "On Windows, thread_interrupted is thrown only in a thread of the library that has interruption enabled, in a sleep, join or interruption_point, and only if a request has been made since the last one was delivered; interruption_point throws if such a request is pending; disabling never loses or adds a request; interruption_requested and interruption_enabled tell the truth.", "quantifier": "any number of threads, all sequences of calls, all schedules and clock readings", "why_tests_cant": "a request can arrive at any moment of a wait, and disabling nests to any depth", "anchors": ["src/win32/thread.cpp: interruptible_wait, interrupt, interruption_point, disable_interruption, join_noexcept, do_try_join_until_noexcept", "include/boost/thread/win32/thread_data.hpp: sleep_for, sleep_until, interrupt"]}
{"id": "C113", "title": "Windows: interrupt wakes a sleeping or joining thread", "statement": "On Windows, a thread that is in a sleep or a join with interruption enabled does not stay there once it has been interrupted.", "quantifier": "any number of threads, all histories and schedules, whether waitable timers can be created or not", "why_tests_cant": "a lost request shows up only for requests between two system calls", "anchors": ["src/win32/thread.cpp: interruptible_wait, interrupt, interruption_point, disable_interruption, join_noexcept, do_try_join_until_noexcept", "include/boost/thread/win32/thread_data.hpp: sleep_for, sleep_until, interrupt"]}
{"id": "C114", "title": "Windows: timed joins and sleeps return the truth", "statement": "On Windows, a join returns true only after the thread has ended, and a timed join returns false, and a sleep returns, only when the time has come on the clock it was given; untimed joins never return false.", "quantifier": "all times, clocks (also such that are set while the call waits), rounding, spurious returns of the system call and schedules", "why_tests_cant": "depends on rounding to milliseconds and on clock changes at any moment", "anchors": ["src/win32/thread.cpp: interruptible_wait, interrupt, interruption_point, disable_interruption, join_noexcept, do_try_join_until_noexcept", "include/boost/thread/win32/thread_data.hpp: sleep_for, sleep_until, interrupt"]}
{"id": "C115", "title": "Windows: timed joins and sleeps end", "statement": "On Windows, a sleep or timed join ends at most one millisecond after its time on the internal clock, and within 101 ms if the user's clock is set past its time.", "quantifier": "all times however far away, all schedules, timers that cannot be created", "why_tests_cant": "times of more than 49 days cannot be waited for in a test", "anchors": ["src/win32/thread.cpp: interruptible_wait, interrupt, interruption_point, disable_interruption, join_noexcept, do_try_join_until_noexcept", "include/boost/thread/win32/thread_data.hpp: sleep_for, sleep_until, interrupt"]}
{"id": "C116", "title": "Windows: a join ends when the thread has ended", "statement": "On Windows, a join does not go on after the thread it joins has ended.", "quantifier": "any number of threads, all schedules", "why_tests_cant": "the window between two accesses to the thread object is short", "anchors": ["src/win32/thread.cpp: interruptible_wait, interrupt, interruption_point, disable_interruption, join_noexcept, do_try_join_until_noexcept", "include/boost/thread/win32/thread_data.hpp: sleep_for, sleep_until, interrupt"]}
{"id": "C117", "title": "unwrap() delivers the outcome of the inner future", "statement": "A future made by unwrap() becomes ready only when its outcome is determined: with the exception of the outer future if that failed, otherwise with the value or exception of the future that the outer one delivered, at any depth of nesting; no assertion inside the library fails on the way.", "quantifier": "every number of threads and futures, every nesting depth, every interleaving of unwrap(), set, wait and get on the futures involved and of the continuations running on the setting threads", "why_tests_cant": "the continuation is attached to the outer and later to the inner state while other threads set them; the order in which the four actions meet is a race", "anchors": ["include/boost/thread/future.hpp: future<future<R>>::unwrap, future_unwrap_shared_state::launch_continuation, make_future_unwrap_shared_state, set_continuation_ptr, do_continuation, wait_internal", "doc/future_ref.qbk: unwrap()"]}
{"id": "C118", "title": "An unwrapped future becomes ready when the outer and inner futures are", "statement": "When nothing runs any more, a thread that still waits for a future made by unwrap() waits for an outcome that is not determined: the outer or the inner future, through any number of unwrap() calls, rests on a promise that has not been set. What the library does by itself ends after a bounded number of steps.", "quantifier": "every number of threads and futures, every nesting depth, every interleaving; promises and deferred functions as sources", "why_tests_cant": "a lost continuation shows only under one interleaving of attaching and setting, as a wait that does not end", "anchors": ["include/boost/thread/future.hpp: future<future<R>>::unwrap, future_unwrap_shared_state::launch_continuation, make_future_unwrap_shared_state, set_continuation_ptr, do_continuation, wait_internal", "doc/future_ref.qbk: unwrap()"]}
{"id": "C119", "title": "unwrap() of a future that delivers an invalid future", "statement": "If the outer future delivers a future without a shared state, the unwrapped future is valid and becomes ready with future_error broken_promise, as documented.", "quantifier": "every history in which the outer future is set to an invalid future, before or after unwrap() is called", "why_tests_cant": "the exception is stored by whichever thread runs the continuation", "anchors": ["include/boost/thread/future.hpp: future<future<R>>::unwrap, future_unwrap_shared_state::launch_continuation, make_future_unwrap_shared_state, set_continuation_ptr, do_continuation, wait_internal", "doc/future_ref.qbk: unwrap()"]}
{"id": "C120", "title": "Scheduled closures start once, not early, and where they were sent", "statement": "A closure submitted through a scheduler, scheduler.at/after, or scheduler.on(ex).at/after is started at most once, never before its time, and by the scheduler's own threads or by exactly the executor ex it was sent to; once its time has come and a thread of the scheduler is free, it is started unless the scheduler is closed or the program has ended; and submit throws only when the scheduler, the wrapper or the executor was closed before.", "quantifier": "every number of threads, executors and clients, every sequence of submissions, closings and clock advances, every schedule", "why_tests_cant": "the order in which clocks advance, threads wake and clients submit is unbounded", "anchors": ["include/boost/thread/executors/scheduler.hpp: scheduler, resubmitter, resubmit_at_executor, scheduler_executor_wrapper, at_executor", "include/boost/thread/executors/scheduled_thread_pool.hpp: scheduled_thread_pool", "include/boost/thread/executors/detail/priority_executor_base.hpp: loop"]}
{"id": "C121", "title": "Closing the executor below a scheduler does not end the program", "statement": "The program ends through std::terminate only if some closure lets an exception out.", "quantifier": "every schedule of submissions through on(ex), closings of ex, and the scheduler's threads", "why_tests_cant": "a test that closes the executor after all resubmissions sees nothing", "anchors": ["include/boost/thread/executors/scheduler.hpp: scheduler, resubmitter, resubmit_at_executor, scheduler_executor_wrapper, at_executor", "include/boost/thread/executors/scheduled_thread_pool.hpp: scheduled_thread_pool", "include/boost/thread/executors/detail/priority_executor_base.hpp: loop"]}
{"id": "C122", "title": "close() of a scheduler lets its threads work until no closure is left", "statement": "After close() the threads go on until every accepted closure has been executed, then end.", "quantifier": "every set of accepted closures and times, every moment of close(), every schedule", "why_tests_cant": "depends on which closures are due at the moment of close()", "anchors": ["include/boost/thread/executors/scheduler.hpp: scheduler, resubmitter, resubmit_at_executor, scheduler_executor_wrapper, at_executor", "include/boost/thread/executors/scheduled_thread_pool.hpp: scheduled_thread_pool", "include/boost/thread/executors/detail/priority_executor_base.hpp: loop"]}
{"id": "C123", "title": "All closures of a scheduler complete before its destructor does", "statement": "When the destructor of a scheduler or scheduled_thread_pool returns, every accepted closure has been executed.", "quantifier": "every set of accepted closures, every moment of destruction, every schedule", "why_tests_cant": "needs every interleaving of the destructor's interruption with the waits of the threads", "anchors": ["include/boost/thread/executors/scheduler.hpp: scheduler, resubmitter, resubmit_at_executor, scheduler_executor_wrapper, at_executor", "include/boost/thread/executors/scheduled_thread_pool.hpp: scheduled_thread_pool", "include/boost/thread/executors/detail/priority_executor_base.hpp: loop"]}
{"id": "C124", "title": "The destructor of a scheduler ends", "statement": "Once called, the destructor of a scheduler returns unless some closure goes on forever.", "quantifier": "every schedule, whatever closures are pending", "why_tests_cant": "absence of deadlock cannot be tested", "anchors": ["include/boost/thread/executors/scheduler.hpp: scheduler, resubmitter, resubmit_at_executor, scheduler_executor_wrapper, at_executor", "include/boost/thread/executors/scheduled_thread_pool.hpp: scheduled_thread_pool", "include/boost/thread/executors/detail/priority_executor_base.hpp: loop"]}
{"id": "C125", "title": "scheduling_adaptor executes closures on the executor it is given", "statement": "Closures submitted to scheduling_adaptor are executed by the underlying executor once their time has come.", "quantifier": "every sequence of submissions and schedule", "why_tests_cant": "a statement about every closure and every schedule", "anchors": ["include/boost/thread/executors/scheduling_adaptor.hpp: scheduling_adaptor", "include/boost/thread/executors/detail/priority_executor_base.hpp: loop"]}
{"id": "C126", "title": "On Windows a waiting writer keeps new readers out", "statement": "While a thread waits in lock() on a Windows shared_mutex and nothing else goes on, a thread that then asks for a shared or upgrade lock does not get it before the writer has had its turn.", "quantifier": "every number of threads, every history of calls and schedule", "why_tests_cant": "the flag that keeps readers out is cleared at every release; whether it is set again depends on the order in which wake-ups are taken", "anchors": ["include/boost/thread/win32/shared_mutex.hpp: lock, lock_shared, try_lock_shared, lock_upgrade, try_lock_until"]}
{"id": "C127", "title": "Continuations are carried out by the right executor", "statement": "A continuation attached with then(ex, f) is given to ex; one attached without naming an executor to a future whose task runs on an executor (async(ex, f), then(ex, f), promise or packaged_task with set_executor) is given to that executor, and to a new thread if the future has none; this holds along chains of continuations of any length, whatever futures have been dropped meanwhile.", "quantifier": "every program of promises, tasks on executors and chains of continuations of futures and shared_futures, every order of destruction, every schedule", "why_tests_cant": "the executor of a chain is reached through objects owned by earlier links; whether they still exist depends on the schedule and the lifetimes of futures", "anchors": ["include/boost/thread/future.hpp: then, async, future_executor_continuation_shared_state, set_executor_policy, get_executor, continuation_shared_state::call", "include/boost/thread/executors/generic_executor_ref.hpp: executor_ref"]}
{"id": "C128", "title": "user_scheduler starts every closure at most once, in the order of submission, and loses none", "statement": "Whatever threads submit closures to a user_scheduler and execute them through loop, try_executing_one, reschedule_until or run_queued_closures, from outside or from inside closures: the closures started so far are the first ones accepted, in the order in which they were accepted, each started once; the next one accepted and not yet started is what the next try_executing_one executes; no call is undefined behaviour.", "quantifier": "every number of threads, every program of calls (also from inside closures) and every interleaving", "why_tests_cant": "which thread takes which closure depends on the interleaving, and run_queued_closures is not exercised together with pending closures by the tests", "anchors": ["include/boost/thread/user_scheduler.hpp: try_executing_one, schedule_one_or_yield, worker_thread, ~user_scheduler, loop, close, closed, submit, reschedule_until, run_queued_closures"]}
{"id": "C129", "title": "user_scheduler::loop works until there are no more closures to run", "statement": "loop() returns only once the scheduler has been closed, and then every closure that was accepted has been started, whether or not closures throw.", "quantifier": "every program of submissions, closures that return or throw, threads in loop, and interleaving", "why_tests_cant": "the outcome depends on which closure throws and whether the scheduler was already closed at that moment", "anchors": ["include/boost/thread/user_scheduler.hpp: try_executing_one, schedule_one_or_yield, worker_thread, ~user_scheduler, loop, close, closed, submit, reschedule_until, run_queued_closures"]}
{"id": "C130", "title": "The destructor of user_scheduler completes after every closure", "statement": "When the destructor of a user_scheduler has returned, every closure that had been accepted has been executed to its end.", "quantifier": "every program of calls and every interleaving before the destructor", "why_tests_cant": "tests call loop before destroying the scheduler; the claim is about every history", "anchors": ["include/boost/thread/user_scheduler.hpp: try_executing_one, schedule_one_or_yield, worker_thread, ~user_scheduler, loop, close, closed, submit, reschedule_until, run_queued_closures"]}
{"id": "C131", "title": "try_executing_one reports whether a closure has been executed", "statement": "user_scheduler::try_executing_one returns true exactly when it has executed a closure; when it returns false no closure was executed and none was waiting. reschedule_until returns true only after having executed a closure.", "quantifier": "every program of calls, closures that return or throw, and interleaving", "why_tests_cant": "a closure that throws while being executed by a nested call, and every interleaving with other threads taking closures", "anchors": ["include/boost/thread/user_scheduler.hpp: try_executing_one, schedule_one_or_yield, worker_thread, ~user_scheduler, loop, close, closed, submit, reschedule_until, run_queued_closures"]}
{"id": "C132", "title": "A testable_mutex says truthfully who holds it", "statement": "testable_mutex<L>: is_locked_by_this_thread(), called by a thread that is not inside another member function, is true exactly when the last thing that thread learned is that it owns the mutex; is_locked() is true exactly when some thread has been told that it owns the mutex and has not called unlock since, and get_id() is the id of that thread; at most one thread holds the mutex at a time, and none is told that it owns it while another is still inside unlock.", "quantifier": "every number of threads, every program of lock, try_lock, timed try_lock, unlock and queries, and every interleaving", "why_tests_cant": "the id and the mutex are updated in separate steps; only an invariant over all interleavings shows that the queries never see the wrong combination", "anchors": ["include/boost/thread/testable_mutex.hpp: lock, unlock, try_lock, try_lock_for, try_lock_until, is_locked_by_this_thread, is_locked, get_id"]}
{"id": "C133", "title": "externally_locked gives access only under its mutex, to one thread at a time", "statement": "externally_locked<T, M>::get(lk) returns the cloaked object only when lk locks the associated mutex, and throws lock_error otherwise; two threads never use the same cloaked object at the same time as long as they use what get returns only while the lock they passed lives.", "quantifier": "every number of threads, mutexes, cloaked objects (also several referring to the same object), strict locks and nested strict locks, and every interleaving", "why_tests_cant": "the claim is about every combination of locks and objects and every interleaving; a test with the right lock cannot show it", "anchors": ["include/boost/thread/externally_locked.hpp: externally_locked::get", "include/boost/thread/strict_lock.hpp: strict_lock, nested_strict_lock", "include/boost/thread/detail/config.hpp: BOOST_THREAD_ASSERT_PRECONDITION"]}
{"id": "C134", "title": "Output through one guard of an externally_locked_stream is contiguous", "statement": "What a thread outputs to an externally_locked_stream in one expression s << a << b << c, or through one guard obtained from hold(), is not interrupted by output of other threads to a stream with the same mutex: from the construction of the guard until it, or the guard it has been moved to, is destroyed, no other thread outputs anything.", "quantifier": "every number of threads, streams, guards, moves of guards, nested output by the same thread, and every interleaving", "why_tests_cant": "interleaving of output depends on the schedule; a test sees a few", "anchors": ["include/boost/thread/externally_locked_stream.hpp: stream_guard, externally_locked_stream::hold, operator<<, operator>>"]}
{"id": "C135", "title": "thread_specific_ptr and at_thread_exit work in threads not started by the library", "statement": "In a thread that was not started by the library (its main thread, or one of pthread_create) every value installed in a thread_specific_ptr is cleaned up or released exactly once by the time the thread has ended, every function given to at_thread_exit has run exactly once, and until then get() returns the value that is installed; also when cleanup and exit functions install further values and register further functions.", "quantifier": "all sequences of operations of the thread and of all the functions called while it ends, to any nesting; every number of repetitions the system allows", "why_tests_cant": "The functions run at the end of a thread form arbitrarily long chains; whether the last value is reached depends on a limit of the system.", "anchors": ["src/pthread/thread.cpp: tls_destructor, make_external_thread_data, get_or_make_current_thread_data, externally_launched_thread", "include/boost/thread/tss.hpp: thread_specific_ptr", "include/boost/thread/detail/thread.hpp: at_thread_exit"]}
{"id": "C136", "title": "What is asked for the end of a thread is done when it ends, in every thread", "statement": "notify_all_at_thread_exit unlocks the mutex and notifies the condition variable, and set_value_at_thread_exit makes the future ready, exactly once and by the time the thread that asked has ended, whether or not the library has started that thread.", "quantifier": "all sequences of such requests, in threads started by the library and others", "why_tests_cant": "A test shows it for the threads it makes; a thread that is never notified looks like a slow one.", "anchors": ["src/pthread/thread.cpp: notify_all_at_thread_exit, make_ready_at_thread_exit, ~thread_data_base, externally_launched_thread", "include/boost/thread/pthread/thread_data.hpp: thread_data_base"]}
{"id": "C137", "title": "condition_variable_any::wait gives up and takes back exactly the caller's lock", "statement": "wait() of a condition_variable_any unlocks the lock it is given only if the caller owns it, throws otherwise and leaves it alone; it takes the lock back, when it is free, at the moment it ends, whether it returns or throws; what lock() throws reaches the caller.", "quantifier": "every number of threads and of mutexes used with one condition variable, every schedule, locks whose lock() may throw at any time", "why_tests_cant": "the moments at which lock() throws or other threads take the mutex cannot be enumerated", "anchors": ["include/boost/thread/pthread/condition_variable.hpp: condition_variable_any, wait, do_wait_until, notify_one, notify_all, lock_on_exit, ~condition_variable_any", "include/boost/thread/pthread/thread_data.hpp: interruption_checker"]}
{"id": "C138", "title": "condition_variable_any loses no notification, whatever locks are used with it", "statement": "Every thread that has given up its lock in wait() before notify_all() is called does not sleep any more in that call once notify_all() has returned; notify_one() wakes one such thread if there is any, and never more than one; this holds although the threads use different mutexes and notify without any; nobody is stuck in the condition variable except asleep or waiting for their own lock.", "quantifier": "every number of threads and mutexes, every history of waits, time-outs, notifications and schedule", "why_tests_cant": "a lost notification needs one particular interleaving", "anchors": ["include/boost/thread/pthread/condition_variable.hpp: condition_variable_any, wait, do_wait_until, notify_one, notify_all, lock_on_exit, ~condition_variable_any", "include/boost/thread/pthread/thread_data.hpp: interruption_checker"]}
{"id": "C139", "title": "A condition variable may be destroyed as soon as all waiters have been notified", "statement": "It is safe to destroy a condition_variable_any when every thread waiting on it has been notified, though the calls of wait() need not have returned.", "quantifier": "every history of calls and schedule before and after the destruction", "why_tests_cant": "the waiter that comes too late uses freed memory without visible effect in most runs", "anchors": ["include/boost/thread/pthread/condition_variable.hpp: condition_variable_any, wait, do_wait_until, notify_one, notify_all, lock_on_exit, ~condition_variable_any", "include/boost/thread/pthread/thread_data.hpp: interruption_checker", "doc/condition_variables.qbk: destructors"]}
{"id": "C140", "title": "Two thread ids are equal exactly if they stand for the same thread", "statement": "Two objects of type thread::id, however obtained, compare equal exactly if they represent the same thread of execution or both represent not-any-thread; an id of not-any-thread is less than every other.", "quantifier": "every history of creating, joining, detaching and moving threads and of obtaining, copying and keeping ids, whatever handles and addresses the system gives out", "why_tests_cant": "depends on when the system reuses a handle", "anchors": ["include/boost/thread/detail/thread.hpp: thread::id, thread::get_id, this_thread::get_id, join", "src/pthread/thread.cpp: start_thread_noexcept, join_noexcept, detach, native_handle", "doc/thread_ref.qbk: thread::id"]}
{"id": "C141", "title": "join() reports a deadlock exactly when a thread joins itself", "statement": "join() throws resource_deadlock_would_occur exactly when the thread object stands for the calling thread; otherwise it waits for the thread, or throws invalid_argument if the object stands for none.", "quantifier": "every history of creating, joining, detaching and moving threads, several threads joining through the same object, whatever handles the system gives out", "why_tests_cant": "depends on when the system reuses a handle", "anchors": ["include/boost/thread/detail/thread.hpp: thread::id, thread::get_id, this_thread::get_id, join", "src/pthread/thread.cpp: start_thread_noexcept, join_noexcept, detach, native_handle", "doc/thread_ref.qbk: thread::id"]}
{"id": "C142", "title": "xtime and system_time are converted without loss", "statement": "get_xtime returns an xtime in the documented normal form (0 <= nsec < 10^9) that stands for exactly the time given; converting it back gives the same time; and an xtime used as the end of a wait is never converted to an earlier time.", "quantifier": "every time the types can hold, before and after 1970, and every size of long", "why_tests_cant": "the arithmetic differs for negative, boundary and out-of-range values", "anchors": ["include/boost/thread/xtime.hpp: xtime, operator system_time, get_xtime, xtime_cmp"]}
{"id": "C143", "title": "xtime_cmp orders times", "statement": "xtime_cmp is negative, zero or positive exactly if the first time is earlier than, the same as or later than the second one.", "quantifier": "all pairs of normalised xtimes, and all pairs returned by get_xtime", "why_tests_cant": "infinitely many pairs, subtraction and narrowing to int", "anchors": ["include/boost/thread/xtime.hpp: xtime, operator system_time, get_xtime, xtime_cmp"]}
{"id": "C144", "title": "The stack size asked for is granted", "statement": "After thread::attributes::set_stack_size(n), n not 0, the stored size is the least multiple of the page size that is at least n and at least the system's minimum; n = 0 changes nothing.", "quantifier": "every size, page size, system minimum and width of size_t", "why_tests_cant": "tests use a few sizes on one system; wrap-around occurs only near the largest value", "anchors": ["include/boost/thread/pthread/thread_data.hpp: thread_attributes::set_stack_size"]}
{"id": "C145", "title": "A queue operation that throws leaves the queue as it was", "statement": "If a push or pull on sync_queue, sync_deque, sync_bounded_queue or sync_priority_queue ends with an exception, the queue holds the same elements in the same order as before; otherwise exactly the element pushed has been added, or the element given to the caller removed.", "quantifier": "every operation, every state of the queue, every place where a copy, move, comparison or allocation throws", "why_tests_cant": "tests use elements that do not throw; there are many places and states", "anchors": ["include/boost/thread/concurrent_queues/sync_queue.hpp: push, pull", "include/boost/thread/concurrent_queues/sync_deque.hpp", "include/boost/thread/concurrent_queues/sync_priority_queue.hpp: priority_queue, pull", "include/boost/thread/concurrent_queues/sync_bounded_queue.hpp: push_at, pull_front, ptr_pull", "doc/sync_queues_ref.qbk: Exception safety"]}
{"id": "C146", "title": "A call that throws leaves no other call asleep", "statement": "When an operation on an element throws in one call of a queue, the calls of other threads are not affected: a thread blocked in a pull (push) sleeps only while the queue is empty (full).", "quantifier": "every schedule of pushes and pulls by any number of threads, throwing at any place, with spurious wake-ups", "why_tests_cant": "needs an exception in the thread that has just been woken", "anchors": ["include/boost/thread/concurrent_queues/sync_queue.hpp: push, pull", "include/boost/thread/concurrent_queues/sync_deque.hpp", "include/boost/thread/concurrent_queues/sync_priority_queue.hpp: priority_queue, pull", "include/boost/thread/concurrent_queues/sync_bounded_queue.hpp: push_at, pull_front, ptr_pull", "doc/sync_queues_ref.qbk: Exception safety"]}
{"id": "C147", "title": "Old Windows: the 64-bit tick count is exact and never goes back", "statement": "Where the system has no GetTickCount64, the clock that all timed waits use returns the time since a fixed origin at some moment of the call; a call that begins after another has returned never gets a smaller value.", "quantifier": "every interleaving of any number of threads and of the periodic refresh, every start time, any number of wrap-arounds of the 32-bit counter", "why_tests_cant": "the counter wraps around every 49.7 days, and the update is not atomic", "anchors": ["src/win32/thread_primitives.cpp: get_tick_count64, refresh_get_tick_count64, get_tick_count_init"]}
{"id": "C148", "title": "An argument passed as an lvalue is copied, not moved from", "statement": "When a program passes one of its objects as an lvalue to a function of the library that stores or returns a copy (get_or, fallback_to, submit of the executors and schedulers, thread, packaged_task, async, call_once, then, task_region_handle::run, promise::set_value, make_ready_future, push of the queues), the object keeps its value and the function gets an object of its own with that value. So the same object can be passed again, and every call gets the same value.", "quantifier": "all sequences of calls, with any objects as arguments, const or not, and any results of the futures", "why_tests_cant": "A test passes mostly temporaries and function pointers; whether the caller's object survives depends on overload resolution and reference collapsing for each function and value category, and shows only when the object is used again.", "anchors": ["include/boost/thread/future.hpp: get_or, fallback_to, then, packaged_task, promise::set_value", "include/boost/thread/user_scheduler.hpp: submit", "include/boost/thread/executors/scheduler.hpp: resubmit", "include/boost/thread/executors/basic_thread_pool.hpp: submit", "include/boost/thread/detail/nullary_function.hpp", "include/boost/thread/detail/move.hpp: decay_copy", "include/boost/thread/pthread/once.hpp: call_once", "include/boost/thread/experimental/parallel/v2/task_region.hpp: run"]}
{"id": "C149", "title": "Arguments may be lvalues, const lvalues or rvalues", "statement": "Every function that is documented to take a copy DECAY_COPY(forward<F>(f)) of its argument can be called with a function object or value that is an lvalue, a const lvalue or an rvalue.", "quantifier": "all these functions and all kinds of arguments", "why_tests_cant": "A test contains only calls that compile; that a kind of argument is rejected is not seen by any test that runs.", "anchors": ["include/boost/thread/future.hpp: continuation_shared_state, then, fallback_to", "include/boost/thread/experimental/parallel/v2/task_region.hpp: wrapped, run"]}
{"id": "C150", "title": "The outcome of a future, once visible, does not change", "statement": "Once any thread has found a value or exception in a future (through get on a shared_future, has_value, has_exception, get_exception_ptr), every thread finds the same outcome ever after, whatever happens to continuations attached to the future; the outcome is one the producer produced; and a producer that has ended, even by an exception, leaves an outcome.", "quantifier": "every producer (promise, async, packaged_task, executor task, continuation, deferred function, at thread exit), every number of continuations, every launch that throws or not, every interleaving of observers", "why_tests_cant": "A test would have to make the creation of a thread or the submission to an executor fail between two observations of a ready future.", "anchors": ["include/boost/thread/future.hpp: shared_state_base::do_continuation, mark_finished_internal, mark_exceptional_finish, future_async_shared_state::run, task_shared_state::do_run, shared_state_nullary_task::operator()", "src/pthread/thread.cpp: thread_data_base::~thread_data_base"]}
{"id": "C151", "title": "A continuation that cannot be launched does not end the program", "statement": "If a continuation attached to a future cannot be launched (its thread cannot be made, its executor is closed), the failure is reported through a future or to a caller; no exception leaves the thread function of async or the destructor run at the end of a thread.", "quantifier": "every function run by async, every set of attached continuations, every launch that throws, every interleaving", "why_tests_cant": "Needs resource exhaustion at the moment at which another thread's function ends.", "anchors": ["include/boost/thread/future.hpp: future_async_shared_state::run, shared_state_base::notify_deferred, do_continuation", "src/pthread/thread.cpp: thread_data_base::~thread_data_base"]}
{"id": "C152", "title": "An executor whose constructor throws leaves nothing behind", "statement": "If the constructor of an executor throws because a thread cannot be started or recorded, the exception reaches the caller, no thread started by the constructor is running then, and none uses a destroyed member; the same holds when an executor that was constructed is destroyed.", "quantifier": "every executor that starts threads in its constructor (basic_thread_pool, scheduled_thread_pool, serial_executor, scheduler, scheduling_adaptor), every number of threads, every failing start or allocation, every interleaving with the workers", "why_tests_cant": "Needs the creation of one of several threads to fail, and races with the workers already started.", "anchors": ["include/boost/thread/executors/basic_thread_pool.hpp: basic_thread_pool::basic_thread_pool, ~basic_thread_pool", "include/boost/thread/executors/scheduled_thread_pool.hpp: scheduled_thread_pool", "include/boost/thread/executors/serial_executor.hpp: serial_executor", "include/boost/thread/executors/scheduler.hpp: scheduler", "include/boost/thread/executors/scheduling_adaptor.hpp: scheduling_adaptor", "include/boost/thread/detail/thread.hpp: thread::~thread"]}
{"id": "C153", "title": "A call that throws instead of starting a thread has not started one", "statement": "If thread_group::create_thread or thread_executor::submit throws, the function was not and will not be run; if it returns, a thread for the function has been started and belongs to the group or executor.", "quantifier": "every failing allocation or start, every interleaving with the new thread", "why_tests_cant": "Needs an allocation of a list node to fail directly after a thread has been started.", "anchors": ["include/boost/thread/detail/thread_group.hpp: thread_group::create_thread", "include/boost/thread/executors/thread_executor.hpp: thread_executor::submit"]}
{"id": "C154", "title": "What the function of call_once has done is visible to every thread that returns from call_once", "statement": "When call_once returns in any thread, the function has returned normally and everything that it wrote, including what executions that ended in an exception wrote before, is visible to that thread, whichever thread executed it and whatever path the return takes, on a machine in which writes become visible to other threads only through synchronisation.", "quantifier": "every number of threads and flags, every interleaving, every choice of stale values that reads may return, every other synchronisation between the threads, all three implementations (pthread atomic, pthread epochs up to 2^32-3 initialisations, Windows)", "why_tests_cant": "The hardware of the test machine reorders too little, and a missing barrier shows only in rare schedules.", "anchors": ["src/pthread/once_atomic.cpp: enter_once_region, commit_once_region, rollback_once_region", "include/boost/thread/pthread/once.hpp: call_once", "src/pthread/once.cpp: get_once_per_thread_epoch", "include/boost/thread/win32/once.hpp: call_once, enter_once_region, commit_once_region, rollback_once_region"]}
{"id": "C155", "title": "Executions of the function of call_once are ordered even where memory is not", "statement": "On such a machine too, an execution of the function starts only when no other execution for the flag is in progress and none has completed, it sees everything that earlier executions, which ended in exceptions, have done, and the function completes at most once.", "quantifier": "as for the previous property", "why_tests_cant": "As for the previous property.", "anchors": ["src/pthread/once_atomic.cpp: enter_once_region, rollback_once_region", "include/boost/thread/pthread/once.hpp: call_once", "include/boost/thread/win32/once.hpp: enter_once_region, rollback_once_region"]}
{"id": "C156", "title": "Windows: what is done under a mutex is seen by its next owner", "statement": "On a machine with release/acquire memory, a thread that owns a Windows mutex sees everything any thread has done while owning it before, whichever of lock, try_lock and the timed locks it used and whether or not it had to wait. Stale values of the mutex's state, which lock and the timed locks read without synchronisation, never let two threads own it, and never make try_lock fail on a free mutex.", "quantifier": "every number of threads, every sequence of lock, try_lock, timed lock, timeout and unlock, every choice of which write each read returns", "why_tests_cant": "On x86 hardware the interlocked operations and even plain reads are stronger than release/acquire, so that no test there can show a missing barrier; on ARM the window is a few instructions.", "anchors": ["include/boost/thread/win32/basic_timed_mutex.hpp: basic_timed_mutex::lock, try_lock, do_lock_until, unlock, mark_waiting_and_try_lock, clear_waiting_and_try_lock"]}
{"id": "C157", "title": "Windows: a recursive mutex recognises its owner though it reads the owner's id unlocked", "statement": "On a machine with release/acquire memory, a thread that calls lock, try_lock or a timed lock of a Windows recursive mutex is treated as the owner exactly if it is the owner: the owner's calls never wait, and no other thread gets in while it is owned. unlock frees the mutex exactly with the owner's last unlock, try_lock fails only if another thread owns it, each owner sees everything done under the mutex before, and the mutex's own unprotected counter is free of data races.", "quantifier": "every number of threads, every nesting depth up to the range of the counter, every interleaving, every choice of which write of the owner's id each read returns", "why_tests_cant": "The id is read without owning the mutex; whether a stale id can be mistaken for the caller's is a question about all executions of a weak memory machine, and x86 hardware shows few of them.", "anchors": ["include/boost/thread/win32/basic_recursive_mutex.hpp: basic_recursive_mutex_impl::lock, try_lock, unlock, try_recursive_lock, try_basic_lock, try_timed_lock"]}
{"id": "C158", "title": "On Windows shared_mutex excludes and passes on effects although threads read its state stale", "statement": "On Windows, for any number of threads that call any functions of boost::shared_mutex and use the data it protects while they own it, no two threads ever hold incompatible locks, a thread that owns it exclusively sees everything done by earlier owners, also by the readers an upgrade waited for, and every owner sees all earlier writes, even though the functions begin with plain reads that may return an old state; try_lock() of a mutex nobody holds or uses succeeds if the caller has synchronised with the threads that used it, though it may fail if it has not; and no wake-up is lost to a stale read, unless a call has thrown lock_error.", "quantifier": "every number of threads, sequence of calls, schedule, time-out and choice of the stale values that reads return", "why_tests_cant": "Stale reads appear only on weakly ordered machines and rare timings; a test runs few interleavings on one machine", "anchors": ["include/boost/thread/win32/shared_mutex.hpp: shared_mutex::lock, lock_shared, try_lock, unlock_upgrade_and_lock, unlock_shared, interlocked_compare_exchange"]}
{"id": "C159", "title": "On Windows the control blocks of threads are destroyed exactly once, after all use, and neither early nor never", "statement": "On Windows, the block that holds the function object, the thread-specific data and the end-of-thread actions of a thread, and that boost::thread objects, thread::ids and the thread itself refer to, is destroyed at most once and never used afterwards; whoever destroys it has seen every access made to it by any thread; it is destroyed only after its thread has ended; it is destroyed once no thread object, id, call or running thread refers to it; and two ids compare equal exactly if they belong to the same thread, although the addresses of destroyed blocks are used again.", "quantifier": "all numbers of threads started by the library or not, all creations, copies, moves, joins, detaches and id copies, all schedules and all release/acquire executions", "why_tests_cant": "A premature or racing destruction needs one particular interleaving of two decrements on a weakly ordered machine, and address reuse depends on the allocator.", "anchors": ["include/boost/thread/win32/thread_data.hpp: thread_data_base, intrusive_ptr_add_ref, intrusive_ptr_release", "src/win32/thread.cpp: ~thread_data_base, run_thread_exit_callbacks, thread_start_function, start_thread_noexcept, make_external_thread_data, get_thread_info, release_handle", "include/boost/thread/detail/thread.hpp: thread::id"]}
{"id": "C160", "title": "On Windows a notification overlooks no thread that it could know to be waiting, although it first reads the number of waiting threads unlocked", "statement": "On Windows, notify_one and notify_all of a condition variable, which return at once if an unlocked and possibly stale read tells them that nobody waits, overlook nobody whose beginning to wait happened before them: if a notification wakes nobody, there was a moment at which all such threads had begun to wait and nobody was left to wake. In particular, where all waits are begun in a way that happened before the notification (as when all is done under one mutex), it wakes somebody if anybody waits. A wake-up is given only if somebody waits.", "quantifier": "all numbers of threads, all sequences of waits, notifications and synchronisation between the threads, all schedules, and all values that release/acquire memory allows a read to return", "why_tests_cant": "On x86 stale reads of this kind do not occur at the granularity of a test, and on other machines they depend on timing that a test cannot force.", "anchors": ["include/boost/thread/win32/condition_variable.hpp: basic_condition_variable (total_count, get_wait_entry, wake_waiters, notify_one, notify_all)", "include/boost/thread/win32/interlocked_read.hpp: interlocked_read_acquire, interlocked_write_release"]}
{"id": "C161", "title": "thread_group::interrupt_all interrupts every thread of the group, also while another thread is in join_all", "statement": "When interrupt_all of a thread_group returns, it has requested the interruption of every thread that was in the group when it was called and has not been removed since, and of no thread that is not in the group. join_all returns only when all threads of the group have ended. While another thread is in join_all, interrupt_all does not wait, so that threads that wait to be interrupted end and join_all returns; and the two calls do not access a thread object in conflict.", "quantifier": "all numbers of callers and members, all interleavings of interrupt_all, join_all, create_thread and remove_thread, and all members, whether they end by themselves or only when interrupted", "why_tests_cant": "The deadlock and the conflicting access need a third thread that arrives between two others.", "anchors": ["include/boost/thread/detail/thread_group.hpp: thread_group::interrupt_all, join_all, create_thread, remove_thread", "include/boost/thread/pthread/shared_mutex.hpp: lock, lock_shared, unlock_shared", "src/pthread/thread.cpp: thread::join_noexcept, thread::get_thread_info, thread::interrupt"]}
