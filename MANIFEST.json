{
 "claims": [
  {
   "property": "C01",
   "status": "proved",
   "theorems": [
    "C01_fifo",
    "C01_linearizable"
   ],
   "note": ""
  },
  {
   "property": "C02",
   "status": "proved",
   "theorems": [
    "C02_capacity",
    "C02_try_push_back_exact",
    "C02_try_pull_front_exact",
    "C02_observers_exact"
   ],
   "note": ""
  },
  {
   "property": "C03",
   "status": "partial",
   "theorems": [
    "C03_size_refuted",
    "C03_size_partial"
   ],
   "note": "The code violates the claim: size() is one too small whenever the ring has wrapped and is not full; refuted by a run, and the exact value is proved."
  },
  {
   "property": "C04",
   "status": "proved",
   "theorems": [
    "C04_no_lost_wakeup",
    "C04_comes_to_rest"
   ],
   "note": ""
  },
  {
   "property": "C05",
   "status": "proved",
   "theorems": [
    "C05_close_rejects_pushes",
    "C05_close_releases_all",
    "C05_close_still_delivers"
   ],
   "note": ""
  },
  {
   "property": "C06",
   "status": "partial",
   "theorems": [
    "C06_wait_push_back_refuted",
    "C06_wait_push_back_partial"
   ],
   "note": "The code violates the claim: a wait_push_back that is asleep when the queue is closed throws instead of returning closed."
  },
  {
   "property": "C07",
   "status": "partial",
   "theorems": [
    "C07_interrupt_refuted",
    "C07_interrupt_partial"
   ],
   "note": "The code violates the claim: an interrupted waiter can swallow the notification meant for another; proved that each interruption strands at most one element."
  },
  {
   "property": "C08",
   "status": "proved",
   "theorems": [
    "C08_fifo",
    "C08_linearizable"
   ],
   "note": ""
  },
  {
   "property": "C09",
   "status": "proved",
   "theorems": [
    "C09_no_lost_wakeup",
    "C09_comes_to_rest"
   ],
   "note": ""
  },
  {
   "property": "C10",
   "status": "partial",
   "theorems": [
    "C10_underlying_refuted",
    "C10_underlying_partial",
    "C10_underlying_wrong",
    "C10_priority_queue"
   ],
   "note": "The code violates the claim: devector's move keeps the source's front index, so after underlying_queue() on a queue from which k>0 elements were pulled since it was last empty, size() is 2^64-k and pulling is undefined. Proved for all other calls, and for sync_priority_queue."
  },
  {
   "property": "C11",
   "status": "proved",
   "theorems": [
    "C11_devector_is_sequence"
   ],
   "note": ""
  },
  {
   "property": "C12",
   "status": "proved",
   "theorems": [
    "C12_greatest_first",
    "C12_no_lost_wakeup"
   ],
   "note": "std::push_heap/pop_heap enter through their standard contract, which is a hypothesis shown satisfiable."
  },
  {
   "property": "C65",
   "status": "partial",
   "theorems": [
    "C65_clock_set_back_refuted",
    "C65_clock_set_back_partial"
   ],
   "note": "The code violates the claim: pull_until on an empty queue with a clock that is set back after the deadline passed reads the top of an empty heap. Proved that no other operation can do this, and that with a steady clock nothing can (C13_steady_defined)."
  },
  {
   "property": "C15",
   "status": "proved",
   "theorems": [
    "C15_not_before_zero",
    "C15_closed_only_before_zero",
    "C15_all_released",
    "C15_comes_to_rest",
    "C15_reset_not_early",
    "C15_reset_releases"
   ],
   "note": ""
  },
  {
   "property": "C16",
   "status": "proved",
   "theorems": [
    "C16_constructor",
    "C16_groups",
    "C16_no_early_return",
    "C16_released_by_own_group",
    "C16_comes_to_rest",
    "C16_defined",
    "C16_wraparound_refuted"
   ],
   "note": "Holds as long as no thread sleeps through 2^32 (W) groups; C16_wraparound_refuted shows that this condition is needed, for every W >= 2."
  },
  {
   "property": "C17",
   "status": "partial",
   "theorems": [
    "C17_interrupt_refuted",
    "C17_interrupt_partial"
   ],
   "note": "The code violates the claim: an interrupted thread stays counted, so the group is released with one participant short. Proved: how many fewer."
  },
  {
   "property": "C66",
   "status": "partial",
   "theorems": [
    "C66_throwing_completion_refuted",
    "C66_throwing_completion_partial"
   ],
   "note": "The code violates the claim: when the completion function throws, the count stays 0 and nobody is notified."
  },
  {
   "property": "C19",
   "status": "proved",
   "theorems": [
    "C19_exactly_once",
    "C19_no_overlap",
    "C19_returns_after_completion"
   ],
   "note": ""
  },
  {
   "property": "C20",
   "status": "proved",
   "theorems": [
    "C20_none_left_behind",
    "C20_quiescent_free",
    "C20_retry",
    "C20_comes_to_rest"
   ],
   "note": ""
  },
  {
   "property": "C21",
   "status": "proved",
   "theorems": [
    "C21_exactly_once",
    "C21_returns_after_completion",
    "C21_none_left_behind",
    "C21_retry",
    "C21_range_refuted"
   ],
   "note": "For up to W-3 initialisations (W = 2^32); C21_range_refuted shows that initialisation number W-2 hangs."
  },
  {
   "property": "C22",
   "status": "proved",
   "theorems": [
    "C22_exclusive",
    "C22_one_upgrader",
    "C22_no_assertion_fails"
   ],
   "note": "For every program that does not combine upgrade ownership with try_unlock_shared_and_lock_for/until (see C25)."
  },
  {
   "property": "C23",
   "status": "proved",
   "theorems": [
    "C23_no_lost_wakeup",
    "C23_free_nobody_blocked",
    "C23_comes_to_rest"
   ],
   "note": "Same programs as C22."
  },
  {
   "property": "C24",
   "status": "proved",
   "theorems": [
    "C24_upgrade_is_atomic"
   ],
   "note": "Same programs as C22."
  },
  {
   "property": "C25",
   "status": "partial",
   "theorems": [
    "C25_exclusion_refuted",
    "C25_hang_refuted",
    "C25_exclusion_partial"
   ],
   "note": "The code violates the claim when an upgrade owner waits in unlock_upgrade_and_lock: two exclusive owners, or the upgrader hangs. Proved for programs without upgrade ownership."
  },
  {
   "property": "C26",
   "status": "partial",
   "theorems": [
    "C26_timed_upgrade_refuted",
    "C26_timed_shared_to_upgrade_refuted",
    "C26_fails_only_with_other_owner_partial"
   ],
   "note": "The code violates the claim: unlock_shared notifies only when the count reaches 0, so the waiter sleeps until its deadline. Proved that it does not fail then."
  },
  {
   "property": "C27",
   "status": "partial",
   "theorems": [
    "C27_writer_preference_refuted",
    "C27_writer_preference_partial"
   ],
   "note": "The code violates the claim: the flag that blocks readers is cleared when the last reader leaves and is not set again by the writer that keeps waiting. Proved while some reader keeps its ownership."
  },
  {
   "property": "C28",
   "status": "proved",
   "theorems": [
    "C28_exclusive",
    "C28_one_upgrader",
    "C28_upgrade_keeps_others_out",
    "C28_count_fits",
    "C28_no_assertion_fails"
   ],
   "note": "For every set of operations, timed ones included, and every reader limit; programs that do not interrupt threads inside the mutex."
  },
  {
   "property": "C29",
   "status": "partial",
   "theorems": [
    "C29_timed_lock_refuted",
    "C29_count_refuted",
    "C29_interrupted_lock_refuted",
    "C29_released_is_as_new_partial",
    "C29_new_reader_admitted_partial"
   ],
   "note": "The code violates the claim: a timed lock that gives up behind a reader does not wake the threads it held back, a timed conversion that gives up restores a stale owner count, and an interrupted lock leaves the mutex closed. Proved: without timed conversions the count is restored, and threads arriving later are not held back."
  },
  {
   "property": "C30",
   "status": "proved",
   "theorems": [
    "C30_exclusive",
    "C30_no_lost_wakeup",
    "C30_comes_to_rest",
    "C30_try_lock_exact"
   ],
   "note": "For programs that do not call timed_lock with neg_infin or not_a_date_time (see C32)."
  },
  {
   "property": "C31",
   "status": "proved",
   "theorems": [
    "C31_exclusive",
    "C31_owner_never_waits",
    "C31_free_exactly_when_balanced",
    "C31_try_lock_exact",
    "C31_no_lost_wakeup",
    "C31_comes_to_rest",
    "C31_depth_refuted"
   ],
   "note": "For nesting depths up to 2^32 (W), the range of the counter; C31_depth_refuted shows that the bound is exact."
  },
  {
   "property": "C32",
   "status": "partial",
   "theorems": [
    "C32_timed_mutex_refuted",
    "C32_recursive_timed_mutex_refuted",
    "C32_timed_mutex_partial",
    "C32_recursive_timed_mutex_partial",
    "C32_other_durations_acquire_partial"
   ],
   "note": "The code violates the claim: timed_lock(neg_infin) and timed_lock(not_a_date_time) return true without locking. Proved for all other durations."
  },
  {
   "property": "C33",
   "status": "proved",
   "theorems": [
    "locks_balanced",
    "locks_never_unlock_unheld",
    "locks_released_at_end",
    "locks_destroyable"
   ],
   "note": "All programs over any number of lock objects (unique_lock, shared_lock, upgrade_lock, upgrade_to_unique_lock, lock_guard, strict_lock, shared_lock_guard, nested_strict_lock, reverse_lock<unique_lock>), with any answers and exceptions of the mutexes. reverse_lock over shared_lock / upgrade_lock is excluded: see reverse_lock_shared_refuted (C39)."
  },
  {
   "property": "C34",
   "status": "proved",
   "theorems": [
    "lock_misuse",
    "lock_strong_guarantee"
   ],
   "note": "lock, try_lock (and the timed forms, which share its code) and unlock in every state; every throwing operation leaves all lock objects and mutexes unchanged."
  },
  {
   "property": "C39",
   "status": "partial",
   "theorems": [
    "reverse_lock_restores_partial",
    "reverse_lock_restores_refuted",
    "reverse_lock_shared_refuted",
    "nested_strict_lock_restores"
   ],
   "note": "False as stated: a lock with a mutex that does not own it owns it after the scope (refuted); reverse_lock over shared_lock/upgrade_lock re-locks exclusively (refuted). Proved for a unique_lock that owns or has no mutex; and for nested_strict_lock."
  },
  {
   "property": "C35",
   "status": "proved",
   "theorems": [
    "lock_runs",
    "lock_acquires_all",
    "lock_throws_holding_none"
   ],
   "note": "For any number of lockables (2-5 in the source) and ranges of any length, all patterns of failures and exceptions."
  },
  {
   "property": "C37",
   "status": "proved",
   "theorems": [
    "try_lock_index",
    "try_lock_range_index",
    "try_lock_never_blocks"
   ],
   "note": "Also shows which lockables are tried, in which order."
  },
  {
   "property": "C38",
   "status": "partial",
   "theorems": [
    "synchronized_value_atomic",
    "synchronized_value_exclusive",
    "synchronized_value_no_cycle_partial",
    "synchronized_value_deadlock_free_partial",
    "synchronized_value_compare_self_refuted",
    "synchronized_value_finishes_partial"
   ],
   "note": "Linearizability of every operation (including two-object assignment, swap and comparison), mutual exclusion and absence of wait cycles/deadlock are proved for any number of threads and any schedule. 'Every operation can complete' is refuted: comparing a synchronized_value with itself never returns (finding F11); every other operation can finish when nobody has locked its objects."
  },
  {
   "property": "C64",
   "status": "partial",
   "theorems": [
    "string_to_unsigned_exact_partial",
    "string_to_unsigned_exact_refuted"
   ],
   "note": "Proved (iff) for strings without NUL bytes; a NUL byte ends the parse, so 7\\0x is accepted as 7 and a lone NUL as 0."
  },
  {
   "property": "C68",
   "status": "proved",
   "theorems": [
    "physical_concurrency_counts",
    "physical_concurrency_falls_back"
   ],
   "note": "The standard library's getline, find and substr are modelled by their specification."
  },
  {
   "property": "C40",
   "status": "proved",
   "theorems": [
    "interruption_exactly_once"
   ],
   "note": "delivered_ok over the history: throw only when enabled and pending, no enabled point passed while pending; the flag equals pending. Model at the granularity of single mutex operations."
  },
  {
   "property": "C41",
   "status": "proved",
   "theorems": [
    "interrupt_wakes_sleeper",
    "no_interrupted_sleeper",
    "interruption_never_deadlocks",
    "runnable_threads_step",
    "wait_ends_with_mutex"
   ],
   "note": "interrupt() cannot return while its target stays asleep in an interruptible wait; lock chains inside the library always end in a thread that can step; waits end with the user's mutex held."
  },
  {
   "property": "C69",
   "status": "partial",
   "theorems": [
    "notify_all_wakes",
    "notify_one_wakes",
    "notification_passed_on_refuted"
   ],
   "note": "Wake-up is proved in full. That a notification is not lost to a waiter that leaves with thread_interrupted is false: a waiter chosen by notify_one and interrupted before its final interruption point throws, and nobody else is woken (finding)."
  },
  {
   "property": "C70",
   "status": "partial",
   "theorems": [
    "interruption_scopes_partial",
    "interruption_scopes_refuted"
   ],
   "note": "Proved when restore_interruption objects are constructed only while interruption is disabled; false for a restore scope nested directly in a restore scope, whose end disables interruption (finding)."
  },
  {
   "property": "C71",
   "status": "partial",
   "theorems": [
    "exit_actions_partial",
    "exit_actions_at_exit_refuted"
   ],
   "note": "At most once, after the function and handlers, and once the object is joined or detached: proved. At thread exit: false while a boost::thread object still refers to the thread: they happen in ~thread_data_base, i.e. in whichever thread drops the last reference (finding)."
  },
  {
   "property": "C43",
   "status": "partial",
   "theorems": [
    "tss_cleanup_running_partial",
    "tss_cleanup_once_partial",
    "tss_cleanup_once_refuted",
    "tss_no_undefined_behaviour_refuted"
   ],
   "note": "Proved for any number of objects and any nesting, provided the cleanup function of a value does not use the thread_specific_ptr holding that value. Without that restriction the claim is false: the code calls the cleanup function while the value is still installed and keeps an iterator to the node across the call, so a cleanup function calling reset() on its own object has the value cleaned up twice, and one calling release() leads to undefined behaviour; both are proved as refutations."
  },
  {
   "property": "C44",
   "status": "proved",
   "theorems": [
    "exit_functions_running",
    "exit_functions_once",
    "exit_functions_not_early",
    "join_after_end"
   ],
   "note": "Exactly once for any behaviour of exit and cleanup functions; that joiners are released afterwards is join_after_end."
  },
  {
   "property": "C45",
   "status": "proved",
   "theorems": [
    "future_outcome",
    "future_outcome_stable"
   ],
   "note": "any number of threads, promise, packaged_task and deferred states, both configurations of INVALID_AFTER_GET; legal/decided in FU_Spec.v. Launches of continuations that throw are outside this model: see C150"
  },
  {
   "property": "C46",
   "status": "proved",
   "theorems": [
    "waiters_released",
    "futures_settle"
   ],
   "note": ""
  },
  {
   "property": "C47",
   "status": "partial",
   "theorems": [
    "broken_promise_partial",
    "broken_promise_assign_refuted"
   ],
   "note": "destruction breaks the future; assigning another promise to it abandons the old state silently: its waiters sleep for ever (F14)"
  },
  {
   "property": "C49",
   "status": "partial",
   "theorems": [
    "get_once_partial",
    "get_once_refuted"
   ],
   "note": "holds with INVALID_AFTER_GET unless a get is interrupted; in the default configuration a second get returns the moved-from value; an interrupted get loses the result"
  },
  {
   "property": "C50",
   "status": "partial",
   "theorems": [
    "get_or_partial",
    "get_or_shared_refuted"
   ],
   "note": "holds for the unique future; shared_future::get_or rethrows the stored exception (F13)"
  },
  {
   "property": "C53",
   "status": "partial",
   "theorems": [
    "task_once_partial",
    "task_run_once",
    "task_reset_refuted"
   ],
   "note": "at most one call between resets; reset does not make the result fresh (F17)"
  },
  {
   "property": "C54",
   "status": "proved",
   "theorems": [
    "deferred_once",
    "deferred_first_waiter"
   ],
   "note": ""
  },
  {
   "property": "C57",
   "status": "proved",
   "theorems": [
    "pool_runs_once",
    "pool_join",
    "pool_none_forgotten"
   ],
   "note": "Any number of workers, submitting threads and closures that submit, close, nest executions. Closures throwing other exceptions terminate the program (documented) and are outside the model."
  },
  {
   "property": "C58",
   "status": "partial",
   "theorems": [
    "pool_destroy_partial",
    "pool_destroy_refuted"
   ],
   "note": "Finding: the destructor interrupts the workers after closing, so accepted closures may never run. Proved: when it has returned the pool is closed and nothing begun is left unfinished by a worker."
  },
  {
   "property": "C60",
   "status": "partial",
   "theorems": [
    "loop_executor_partial",
    "loop_executor_refuted"
   ],
   "note": "Finding: run_queued_closures moves the container out and leaves its front index behind: later closures are lost or undefined behaviour follows. Proved for all uses without run_queued_closures."
  },
  {
   "property": "C61",
   "status": "proved",
   "theorems": [
    "scheduled_not_early",
    "scheduled_in_order",
    "scheduled_due_starts",
    "scheduled_no_lost_wakeup",
    "scheduled_loop_goes_on"
   ],
   "note": "The common base of scheduler, scheduled_thread_pool and scheduling_adaptor. Finding recorded in DESIGN.md: scheduling_adaptor runs the tasks on its own thread and never uses the executor it adapts."
  },
  {
   "property": "C55",
   "status": "partial",
   "theorems": [
    "wait_for_any_partial",
    "wait_for_any_ordered_partial",
    "wait_for_any_refuted"
   ],
   "note": "Returned index names a future whose value was set before the return: proved for all arguments, schedules, interruptions. No deadlock between calls (and with setters): proved when all calls list the shared states in one common order; refuted otherwise (opposite orders, or the same future twice, block for ever, and block the setters too). Deferred futures are not modelled."
  },
  {
   "property": "C56",
   "status": "partial",
   "theorems": [
    "made_ready_partial",
    "made_ready_refuted"
   ],
   "note": "Proved for make_future, make_ready_future, make_ready_no_decay_future, make_exceptional_future and make_shared_future(v), for all later uses by any threads. Refuted for make_shared_future() of no argument: it never sets the value, the future it returns holds broken_promise."
  },
  {
   "property": "C51",
   "status": "partial",
   "theorems": [
    "continuation_once",
    "continuation_all_partial",
    "continuation_all_refuted",
    "launch_once",
    "launch_all_partial",
    "launch_all_refuted"
   ],
   "note": "At most once, never before the parent is ready: proved for all schedules, nestings and failing launches. Exactly once at rest: proved when no launch throws; refuted when one does: a launch that throws drops the continuations attached after it (finding). launch_...: the same for every kind of producer, with the launches of late continuations by the caller of then, and with the proof that a lost continuation is never launched later."
  },
  {
   "property": "C52",
   "status": "partial",
   "theorems": [
    "continuation_wait_partial",
    "continuation_wait_deferred_refuted",
    "continuation_wait_interrupted_refuted"
   ],
   "note": "Proved: no waiter stays when the parent is not deferred and made ready, or parent and continuation are both deferred. Refuted: deferred parent with async/sync/executor policy or unwrap never runs (for all executions no wait returns); an interrupted wait on a deferred continuation makes all later waits hang."
  },
  {
   "property": "C63",
   "status": "partial",
   "theorems": [
    "thread_group_partial",
    "thread_group_once_partial",
    "thread_group_no_hang_partial",
    "thread_group_refuted"
   ],
   "note": "Proved for all schedules: size, is_thread_in, add, remove follow the completed calls; join_all returns only after all members have ended. Each once and no double delete: proved when one thread does the adding. Refuted otherwise: two concurrent add_thread of one thread both succeed (double delete in the destructor); a joined thread is refused although not a member; join_all keeps the lock while waiting, so a member that calls create_thread deadlocks with it."
  },
  {
   "property": "C59",
   "status": "partial",
   "theorems": [
    "serial_once",
    "serial_order_partial",
    "serial_order_refuted"
   ],
   "note": "Exactly once, and no call left waiting: proved for all schedules and calls. In order, one at a time, all run before the destructor returns: proved when users do not call the public try_executing_one/reschedule_until; refuted otherwise (two closures overlap). Findings: a closure that throws does not terminate the program as documented, its exception is dropped."
  },
  {
   "property": "C72",
   "status": "partial",
   "theorems": [
    "serial_cont_order",
    "serial_cont_destroy_refuted"
   ],
   "note": "Order, no overlap, exactly once at rest: proved for all schedules. The destructor's documented guarantee is refuted: it only closes and returns while accepted closures have not run."
  },
  {
   "property": "C73",
   "status": "proved",
   "theorems": [
    "C73_exclusive",
    "C73_try_lock_exact"
   ],
   "note": "For all interleavings of single interlocked operations, of any number of threads."
  },
  {
   "property": "C74",
   "status": "proved",
   "theorems": [
    "C74_no_lost_wakeup",
    "C74_waiters_exact"
   ],
   "note": "For all interleavings and timeouts."
  },
  {
   "property": "C75",
   "status": "partial",
   "theorems": [
    "C75_destroy_refuted",
    "C75_destroy_partial"
   ],
   "note": "Refuted: an unlock that found a waiter accesses the mutex after other threads have locked, unlocked and may have destroyed it. Proved when no thread is inside lock or a timed lock at the time of the release."
  },
  {
   "property": "C76",
   "status": "proved",
   "theorems": [
    "C76_exclusive",
    "C76_owner_never_waits",
    "C76_owner_never_asleep",
    "C76_no_lost_wakeup",
    "C76_free_exactly_when_balanced"
   ],
   "note": "For all interleavings and depths up to the range of recursion_count; the underlying mutex is abstract (C73, C74)."
  },
  {
   "property": "C77",
   "status": "partial",
   "theorems": [
    "C77_notify_one_wakes_a_waiter_refuted",
    "C77_notify_one_partial",
    "C77_no_spurious_wakeup"
   ],
   "note": "Refuted: threads that begin to wait after the call can take the wake-up, the notified thread sleeps on. Proved: every call of notify_one is followed by a wake-up of its own, of some thread; no wait returns as woken without a notification."
  },
  {
   "property": "C78",
   "status": "partial",
   "theorems": [
    "C78_notify_all_wakes_all_refuted",
    "C78_notify_all_partial"
   ],
   "note": "Refuted: notify_all does nothing if every wait has been notified, and the wake-up of an earlier notify_one can be stolen. Proved when some wait has not been notified, and for programs that do not use notify_one."
  },
  {
   "property": "C79",
   "status": "proved",
   "theorems": [
    "C79_when_all_value",
    "C79_when_all_completes",
    "C79_steps_bounded"
   ],
   "note": "For all numbers of futures and all interleavings with the threads that complete them."
  },
  {
   "property": "C80",
   "status": "partial",
   "theorems": [
    "C80_when_all_runs_deferred_refuted",
    "C80_when_all_runs_deferred_partial",
    "C80_when_all_tuple_partial",
    "C80_executed_once",
    "C80_complete_on_return",
    "C80_call_does_not_wait"
   ],
   "note": "Refuted for the overload that takes the futures one by one: it stops at the last future that is not deferred, deferred functions before it run later on another thread. Proved for ranges; exactly once and not waiting proved for both."
  },
  {
   "property": "C81",
   "status": "partial",
   "theorems": [
    "C81_when_any_value",
    "C81_when_any_completes",
    "C81_when_any_at_once",
    "C81_when_any_executes_one",
    "C81_when_any_in_order_refuted",
    "C81_when_any_in_order_partial",
    "C81_when_any_tuple_order"
   ],
   "note": "Order refuted for the overload that takes the futures one by one: it checks from the last to the first and executes a deferred function although an earlier future is ready. Proved for ranges; the rest proved for both."
  },
  {
   "property": "C82",
   "status": "partial",
   "theorems": [
    "C82_thread_failure_throws_refuted",
    "C82_thread_failure_throws_partial"
   ],
   "note": "Refuted with BOOST_THREAD_VERSION below 5: the exception destroys the shared state, whose destructor waits for a result that nobody will produce, so the call never returns. Proved for version 5."
  },
  {
   "property": "C13",
   "status": "proved",
   "theorems": [
    "C13_not_early_and_in_order",
    "C13_exact",
    "C13_conserved",
    "C13_steady_defined",
    "C13_pull_for_not_early"
   ],
   "note": ""
  },
  {
   "property": "C14",
   "status": "proved",
   "theorems": [
    "C14_due_is_delivered",
    "C14_no_lost_wakeup",
    "C14_comes_to_rest",
    "C14_timed_pull_bounded"
   ],
   "note": ""
  },
  {
   "property": "C18",
   "status": "partial",
   "theorems": [
    "C18_wait_after_completion_refuted",
    "C18_try_wait_refuted",
    "C18_wait_for_refuted",
    "C18_count_down_refuted",
    "C18_not_before_zero_partial",
    "C18_released_partial",
    "C18_completes_once_partial",
    "C18_comes_to_rest",
    "C18_results_exact",
    "C18_completion_function"
   ],
   "note": "The code violates the claim: wait after completion blocks for ever, try_wait and wait_for/wait_until block without limit until completion, and the last count_down blocks for ever if nobody waits. Proved: waiters registered before the count reaches zero are released, none earlier, the completion function in force runs once, and results agree with the count at the moment of return, also with reset and interruption."
  },
  {
   "property": "C83",
   "status": "proved",
   "theorems": [
    "C83_once_and_result",
    "C83_completes",
    "C83_lifetime"
   ],
   "note": "One call of async with any number of clients; a critical section is one step."
  },
  {
   "property": "C84",
   "status": "partial",
   "theorems": [
    "C84_destructor_blocks_refuted",
    "C84_state_outlives_function_partial"
   ],
   "note": "Refuted in every configuration: the running thread shares ownership of the state, so dropping the last future returns at once. Proved: the state is only destroyed after the function has ended, so the destructor never blocks."
  },
  {
   "property": "C85",
   "status": "partial",
   "theorems": [
    "C85_failure_throws_refuted",
    "C85_failure_hangs",
    "C85_failure_throws_partial"
   ],
   "note": "Refuted for BOOST_THREAD_VERSION 4, where the destructor of the new state waits for ever; proved for the other versions."
  },
  {
   "property": "C86",
   "status": "partial",
   "theorems": [
    "C86_policy_honoured_refuted",
    "C86_policy_honoured_partial"
   ],
   "note": "Refuted without variadic templates (versions 2 and 3), where launch::deferred calls std::terminate; proved with them."
  },
  {
   "property": "C42",
   "status": "proved",
   "theorems": [
    "join_after_end",
    "join_detach_once",
    "join_returns",
    "join_settles",
    "join_timeout_rechecks"
   ],
   "note": "Any number of joiners, timed joiners, detachers, interruptions. Accesses to the object's thread_info shared_ptr are taken to be atomic (they are not synchronised in the code)."
  },
  {
   "property": "C67",
   "status": "partial",
   "theorems": [
    "C67_no_lost_wakeup",
    "C67_reader_waits_for_writer",
    "C67_comes_to_rest",
    "C67_more_threads_than_limit_refuted",
    "C67_leaving_full_wakes_partial"
   ],
   "note": "Proved whenever there are no more threads than the reader count can hold (2^30-1 with a 32-bit unsigned). With more threads it is refuted: only one reader is woken when the count drops below the limit."
  },
  {
   "property": "C87",
   "status": "partial",
   "theorems": [
    "C87_wait_until_pred_partial",
    "C87_wait_until_pred_steady_partial",
    "C87_wait_for_pred_partial",
    "C87_unstable_pred_refuted",
    "C87_wait_until",
    "C87_wait_for",
    "C87_try_until",
    "C87_try_for"
   ],
   "note": "Proved for any clock; with a predicate provided it does not change between two evaluations under one hold of the lock (the loop evaluates it once more to compute the result)."
  },
  {
   "property": "C88",
   "status": "partial",
   "theorems": [
    "C88_polled",
    "C88_no_predicate_refuted"
   ],
   "note": "Proved for all calls that poll (with predicate, try_lock_until, try_join_until, sleep_until); false for wait_until and timed_wait without predicate, which compute the duration once."
  },
  {
   "property": "C89",
   "status": "partial",
   "theorems": [
    "C89_sleep_until",
    "C89_sleep_for",
    "C89_nip_sleep_for_refuted",
    "C89_nip_sleep_for_partial",
    "C89_nip_sleep_until_steady_refuted",
    "C89_nip_sleep_until_steady_partial"
   ],
   "note": "The interruptible sleeps and no_interruption_point::sleep_until are proved; no_interruption_point::sleep_for and sleep_until(steady_clock) end early when a signal handler runs, as nanosleep is not restarted."
  },
  {
   "property": "C90",
   "status": "partial",
   "theorems": [
    "C90_timed_wait_rel_partial",
    "C90_special_durations_refuted",
    "C90_timed_wait_rel_pred"
   ],
   "note": "False for neg_infin and not_a_date_time: true is returned at once without a wake-up."
  },
  {
   "property": "C91",
   "status": "partial",
   "theorems": [
    "C91_try_lock_past_refuted",
    "C91_try_lock_until_epoch_refuted",
    "C91_wait_past_throws_refuted",
    "C91_huge_undefined_refuted",
    "C91_polled_defined_partial",
    "C91_wait_until_pred_no_error_partial"
   ],
   "note": "False: a time before the start of the monotonic clock makes try_lock_until loop for ever (or fail an assertion) and waits and joins throw condition_error; duration::max overflows. The partial theorems give the range in which the polled calls are well defined."
  },
  {
   "property": "C92",
   "status": "proved",
   "theorems": [
    "C92_join"
   ],
   "note": ""
  },
  {
   "property": "C93",
   "status": "partial",
   "theorems": [
    "C93_exceptions_partial",
    "C93_no_exception_lost",
    "C93_reported_once_refuted"
   ],
   "note": "Exact for bodies without wait; with wait none is lost or invented, but an exception that wait has thrown is reported up to three times."
  },
  {
   "property": "C94",
   "status": "proved",
   "theorems": [
    "C94_cancellation"
   ],
   "note": ""
  },
  {
   "property": "C95",
   "status": "partial",
   "theorems": [
    "C95_bounded",
    "C95_returns",
    "C95_pool_returns_partial",
    "C95_nested_pool_refuted"
   ],
   "note": "Proved when every region has threads of its own (the default) and for one pool without nested regions; nested regions on one pool deadlock, as waiting workers do not run queued tasks."
  },
  {
   "property": "C36",
   "status": "proved",
   "theorems": [
    "lock_blocks_holding_none",
    "lock_waits_for_the_busy_one",
    "lock_no_wait_cycle",
    "lock_deadlock_free"
   ],
   "note": "Any number of threads, any argument lists (also with repeated mutexes), any schedule."
  },
  {
   "property": "C48",
   "status": "partial",
   "theorems": [
    "deferred_setters_partial",
    "deferred_setters_refuted",
    "deferred_setters_survive_destructor"
   ],
   "note": "holds once a value is ready; before the notification, and after a stored exception, a second deferred setter succeeds and replaces the outcome (F15)"
  },
  {
   "property": "C62",
   "status": "partial",
   "theorems": [
    "timespec_roundtrip",
    "timespec_normalised_partial",
    "timespec_normalised_refuted",
    "milliseconds_exact",
    "milliseconds_never_short_partial",
    "milliseconds_overflow_refuted",
    "time_order",
    "time_arithmetic",
    "time_duration_exact",
    "getMax_compare_refuted",
    "wait_until_times_out_partial",
    "wait_until_steady_times_out_partial",
    "wait_until_times_out_refuted",
    "wait_until_pred_ok",
    "sleep_for_ok"
   ],
   "note": "Round trip, order, arithmetic and rounding are proved for all 64-bit values. Normalisation is refuted for every negative value that is not a whole number of seconds, with a visible consequence: condition_variable::wait_until with a deadline before the monotonic clock's epoch throws condition_error instead of timing out. getMs overflows for the last 999999 values; getMax() cannot be compared."
  },
  {
   "property": "C96",
   "status": "proved",
   "theorems": [
    "thread_executor_destructor_waits",
    "thread_executor_once",
    "thread_executor_closed"
   ],
   "note": "Any number of users and closures, closures submit closures to any depth."
  },
  {
   "property": "C97",
   "status": "partial",
   "theorems": [
    "thread_executor_no_waiting",
    "thread_executor_terminates",
    "thread_executor_alive_partial",
    "thread_executor_use_after_destruction",
    "thread_executor_no_terminate",
    "thread_executor_alive_refuted"
   ],
   "note": "Refuted: the executor's mutex is a member declared after the threads, so it is destroyed before they are joined, and a closure that submits then uses a destroyed mutex. Proved for closures that do not use their executor, and whenever all closures have returned before the destructor is called."
  },
  {
   "property": "C98",
   "status": "proved",
   "theorems": [
    "inline_executor_nests",
    "inline_executor_once",
    "inline_executor_closed",
    "inline_executor_never_blocks",
    "inline_executor_terminates"
   ],
   "note": "A closure accepted before a close by another thread may begin after it (inline_executor_story)."
  },
  {
   "property": "C99",
   "status": "proved",
   "theorems": [
    "thread_represented_once",
    "thread_released_once",
    "thread_join_after_end",
    "thread_construction",
    "thread_move_construction",
    "thread_swap",
    "thread_move_assignment"
   ],
   "note": "Any number of threads, objects and shared variables. Objects captured by a thread function are modelled as its parameters, destroyed when it returns; in the code they live on in the thread's data."
  },
  {
   "property": "C100",
   "status": "proved",
   "theorems": [
    "scoped_thread_waits",
    "scoped_thread_interruption",
    "scoped_thread_not_interrupted"
   ],
   "note": "Both versions. Move assignment, unlike the destructors, is an interruption point (assignment_interrupted)."
  },
  {
   "property": "C101",
   "status": "proved",
   "theorems": [
    "scoped_threads_structured",
    "scoped_threads_safe"
   ],
   "note": "Any nesting, with interruptions, timed joins and failing thread creation."
  },
  {
   "property": "C102",
   "status": "proved",
   "theorems": [
    "thread_programs_finish"
   ],
   "note": "exchange_deadlock shows that the condition is needed."
  },
  {
   "property": "C103",
   "status": "proved",
   "theorems": [
    "thread_terminate_reasons",
    "thread_no_silent_detach"
   ],
   "note": "reasons_example reaches each reason."
  },
  {
   "property": "C104",
   "status": "proved",
   "theorems": [
    "shared_mutex_win_exclusion",
    "shared_mutex_win_try_lock"
   ],
   "note": "The clock is not modelled: a timed wait may end at any moment."
  },
  {
   "property": "C105",
   "status": "proved",
   "theorems": [
    "shared_mutex_win_no_lost_wakeup"
   ],
   "note": ""
  },
  {
   "property": "C106",
   "status": "partial",
   "theorems": [
    "readers_wait_for_writers_partial",
    "readers_wait_for_writers_timed_refuted",
    "readers_wait_for_writers_upgrade_refuted"
   ],
   "note": "False as stated: a timed-out try_lock_for wakes only one of the readers it blocked, and a thread waiting in lock_upgrade can take a reader's wake-up. Proved for programs without timed exclusive locks and lock_upgrade."
  },
  {
   "property": "C107",
   "status": "partial",
   "theorems": [
    "lock_error_only_when_full_partial",
    "lock_shared_error_only_when_full_partial",
    "lock_error_only_when_full_refuted"
   ],
   "note": "False with timed locks: each badly timed time-out leaves a token behind, and with 127 of them lock() throws lock_error with two threads. Proved for programs without timed locks (and, for lock_shared, without unlock_upgrade, which releases a token too many)."
  },
  {
   "property": "C108",
   "status": "proved",
   "theorems": [
    "call_once_win_exactly_once",
    "call_once_win_no_overlap"
   ],
   "note": "For any number of threads, calls and schedules."
  },
  {
   "property": "C109",
   "status": "proved",
   "theorems": [
    "call_once_win_none_left_behind",
    "call_once_win_retry",
    "call_once_win_finishes"
   ],
   "note": "For any number of threads, calls, exceptions and schedules."
  },
  {
   "property": "C110",
   "status": "partial",
   "theorems": [
    "call_once_win_waits_asleep_partial",
    "call_once_win_waits_asleep_refuted"
   ],
   "note": "Refuted: after an exception the event can be left signalled while the next thread executes the function; threads that wait then go round the loop until it returns. Proved as long as the function has not thrown."
  },
  {
   "property": "C111",
   "status": "proved",
   "theorems": [
    "call_once_win_names"
   ],
   "note": ""
  },
  {
   "property": "C112",
   "status": "proved",
   "theorems": [
    "win_interruption_exactly_once"
   ],
   "note": "For any number of threads, calls and schedules."
  },
  {
   "property": "C113",
   "status": "proved",
   "theorems": [
    "win_interrupt_wakes"
   ],
   "note": "It cannot stay blocked (any timers), and leaves within 15 steps of its own (with working timers, or times less than 49 days ahead)."
  },
  {
   "property": "C114",
   "status": "proved",
   "theorems": [
    "win_joins_and_sleeps_right"
   ],
   "note": "Also for clocks that are set, waits that return early, and without timers."
  },
  {
   "property": "C115",
   "status": "partial",
   "theorems": [
    "win_timed_calls_end_partial",
    "win_timed_calls_end_refuted",
    "win_clock_set_forward"
   ],
   "note": "Refuted: if no waitable timer can be created, a time exactly 2^32-1 ms ahead is passed as INFINITE and never ends. Proved with timers, or for times less than 49.7 days ahead."
  },
  {
   "property": "C116",
   "status": "partial",
   "theorems": [
    "win_join_ends_partial",
    "win_join_ends_soon",
    "win_join_ends_refuted"
   ],
   "note": "Refuted when two threads join the same object: the second looks the handle up after the first has made the object empty, and waits for ever. Proved if no other thread joins or detaches the object."
  },
  {
   "property": "C117",
   "status": "proved",
   "theorems": [
    "unwrap_outcome",
    "unwrap_never_stuck_inside"
   ],
   "note": "resolves (UW_Spec.v) gives the outcome from the history; it is functional."
  },
  {
   "property": "C118",
   "status": "partial",
   "theorems": [
    "unwrap_completes_refuted",
    "unwrap_completes_partial",
    "unwrap_ends"
   ],
   "note": "Refuted for deferred outer or inner futures: nothing executes the deferred function, so waiting for the unwrapped future does not end (future.hpp 389-400 looks at the unwrapped state only). Proved when no deferred function is involved; with deferred functions, the thread waits for one behind an unwrap(), never for one it waits for directly."
  },
  {
   "property": "C119",
   "status": "partial",
   "theorems": [
    "unwrap_invalid_inner_refuted",
    "unwrap_invalid_inner_partial"
   ],
   "note": "The exception is future_uninitialized (future.hpp 5425-5426), not broken_promise as documented (future_ref.qbk 993)."
  },
  {
   "property": "C121",
   "status": "partial",
   "theorems": [
    "schedule_terminates_only_by_closure_refuted",
    "schedule_terminates_only_by_closure_partial"
   ],
   "note": "refuted: a resubmission to an executor closed meanwhile throws inside the scheduler's thread and ends the program; proved that this is the only other cause"
  },
  {
   "property": "C122",
   "status": "partial",
   "theorems": [
    "schedule_close_runs_all_refuted",
    "schedule_close_runs_all_partial"
   ],
   "note": "refuted: closures not yet due at close() are dropped; proved for those due at close()"
  },
  {
   "property": "C123",
   "status": "partial",
   "theorems": [
    "schedule_destructor_completes_refuted",
    "schedule_destructor_completes_due_refuted",
    "schedule_destructor_completes_partial"
   ],
   "note": "refuted: closures not yet due are dropped, and due ones may be when the interruption is seen first; proved that running ones end first and due ones are executed when no thread is ended by the interruption"
  },
  {
   "property": "C124",
   "status": "proved",
   "theorems": [
    "schedule_destructor_ends"
   ],
   "note": ""
  },
  {
   "property": "C125",
   "status": "partial",
   "theorems": [
    "scheduling_adaptor_uses_executor_refuted",
    "scheduling_adaptor_uses_executor_partial"
   ],
   "note": "refuted: the adaptor never uses its executor; proved that its own thread executes each closure once and not early"
  },
  {
   "property": "C126",
   "status": "partial",
   "theorems": [
    "waiting_writer_keeps_readers_out_partial",
    "waiting_writer_keeps_readers_out_upgrade_refuted",
    "waiting_writer_keeps_readers_out_timed_refuted"
   ],
   "note": "refuted: a thread in lock_upgrade, or a reader behind a timed writer that gives up, can take the wake-up of the writer, which then waits while new readers get in; proved for programs without these two calls in which lock() has not thrown"
  },
  {
   "property": "C127",
   "status": "partial",
   "theorems": [
    "inherited_executor_refuted",
    "inherited_executor_partial",
    "inherited_once_partial",
    "inherited_kept_partial"
   ],
   "note": "refuted: the executor of a continuation that names none is a reference to an object owned by the parent's state; with async(ex, f).then(g).then(h) that state can be destroyed before h is launched (use after free); proved that every submission that happens goes to the right executor and that the program is defined when executors are inherited once only, or the futures they are inherited from are kept"
  },
  {
   "property": "C128",
   "status": "partial",
   "theorems": [
    "scheduler_order_refuted",
    "scheduler_order_partial",
    "run_queued_closures_partial"
   ],
   "note": "False of the code: run_queued_closures has its loop condition inverted, it drops every queued closure unexecuted, and on an empty queue takes front() of an empty container. Proved without run_queued_closures, and what it does is proved for every reachable state."
  },
  {
   "property": "C129",
   "status": "partial",
   "theorems": [
    "loop_end_refuted",
    "loop_end_partial"
   ],
   "note": "False of the code: after close a closure that throws ends loop with closures left. Proved: loop returns only when closed and when all accepted closures have been started or its own last closure threw."
  },
  {
   "property": "C130",
   "status": "partial",
   "theorems": [
    "destroyed_done_refuted",
    "destroyed_done_partial"
   ],
   "note": "False of the code: the destructor only closes. Proved: every started closure has ended, and every accepted one if a loop has returned and nothing was thrown."
  },
  {
   "property": "C131",
   "status": "partial",
   "theorems": [
    "try_result_refuted",
    "try_result_partial"
   ],
   "note": "False of the code: a closure that throws is reported as not executed, and its exception is swallowed (documentation: passed on, or std::terminate). Proved: otherwise exact; also for reschedule_until."
  },
  {
   "property": "C132",
   "status": "proved",
   "theorems": [
    "testable_truth"
   ],
   "note": "Over an abstract wrapped mutex; callers respect the asserted preconditions."
  },
  {
   "property": "C133",
   "status": "partial",
   "theorems": [
    "cloak_default_refuted",
    "cloak_shared_refuted",
    "cloak_partial"
   ],
   "note": "False of the code: in the default configuration the check is compiled out, so a lock of any mutex is accepted (the documentation says the opposite); and a nested_strict_lock<shared_lock<M>> gets a T&. Proved when the check is compiled in or locks of the right mutex are passed: simultaneous uses only under shared locks."
  },
  {
   "property": "C134",
   "status": "proved",
   "theorems": [
    "stream_contiguous"
   ],
   "note": "For guards of the right stream (the operators and hold() always use the right one), or with the check compiled in."
  },
  {
   "property": "C120",
   "status": "proved",
   "theorems": [
    "schedule_once_not_early",
    "schedule_started_when_due",
    "schedule_as_asked",
    "schedule_rejects_only_closed"
   ],
   "note": "for any number of threads, executors, clients"
  },
  {
   "property": "C135",
   "status": "partial",
   "theorems": [
    "external_cleanup_partial",
    "external_cleanup_once_partial",
    "external_exit_functions",
    "external_cleanup_once_refuted",
    "external_get_refuted"
   ],
   "note": "Proved: conservation at every point of the end of the thread, no undefined behaviour even if cleanup functions use their own object at that time, and everything exactly once if the system's limit of repetitions is not reached. False in full: for every limit there is a thread whose (finite) chain of cleanup functions leaves a value that is never cleaned up, and get() returns null for values still installed while the thread ends."
  },
  {
   "property": "C136",
   "status": "partial",
   "theorems": [
    "exit_requests_partial",
    "exit_requests_refuted",
    "exit_requests_external_partial"
   ],
   "note": "Proved for threads of the library (when: C71). False for others: externally_launched_thread ignores notifications and clears the list of futures before ~thread_data_base gets to it; the lock given away is either unlocked at once or never."
  },
  {
   "property": "C137",
   "status": "partial",
   "theorems": [
    "wait_any_gives_back_the_lock_partial",
    "wait_any_mutexes_partial",
    "wait_any_exception_refuted"
   ],
   "note": "Proved: every event of every execution is legal, and the owners of the mutexes are those the history says. False in full: if lock() throws when wait() takes the lock back, the guard's destructor calls lock() again during unwinding; if that throws too the program ends."
  },
  {
   "property": "C138",
   "status": "proved",
   "theorems": [
    "notify_all_any",
    "notify_one_any",
    "notify_one_any_once",
    "condition_any_progress"
   ],
   "note": ""
  },
  {
   "property": "C139",
   "status": "partial",
   "theorems": [
    "condition_any_destruction_refuted",
    "condition_any_destruction_partial"
   ],
   "note": "False under the documented precondition: a woken waiter still has to lock and unlock internal_mutex, a member of the destroyed object. Proved under a stronger one: every call has left the condition variable, except that it may be locking the caller's lock again."
  },
  {
   "property": "C140",
   "status": "partial",
   "theorems": [
    "thread_id_pointer",
    "thread_id_partial",
    "thread_id_same",
    "thread_id_none_least",
    "thread_id_refuted"
   ],
   "note": "True without BOOST_THREAD_PROVIDES_BASIC_THREAD_ID. In the default configuration an id is a pthread_t, which the system may give to a new thread once the old one has been joined; true while both threads run or have not been joined or detached."
  },
  {
   "property": "C141",
   "status": "partial",
   "theorems": [
    "self_join_waits_for_others",
    "self_join_pointer",
    "self_join_partial",
    "self_join_refuted"
   ],
   "note": "True without BOOST_THREAD_PROVIDES_BASIC_THREAD_ID. By default a thread that got the handle of a thread just joined by another one is told that it joins itself, if the object has not been reset yet."
  },
  {
   "property": "C142",
   "status": "partial",
   "theorems": [
    "xtime_conversion_partial",
    "xtime_to_system_time_partial",
    "get_xtime_exact",
    "xtime_conversion_refuted",
    "xtime_not_early_refuted",
    "xtime_long_refuted"
   ],
   "note": "Proved for times since 1970 that fit long; an xtime is converted to the nearest microsecond. False: before 1970 (nsec negative, and the way back is off by a microsecond), never early (up to half a microsecond), and from 2038 on where long has 32 bits."
  },
  {
   "property": "C143",
   "status": "proved",
   "theorems": [
    "xtime_cmp_order",
    "xtime_cmp_get_xtime"
   ],
   "note": ""
  },
  {
   "property": "C144",
   "status": "partial",
   "theorems": [
    "stack_size_partial",
    "stack_size_refuted"
   ],
   "note": "Proved for all sizes for which rounding up does not wrap around; near the largest size it does, and the size is not set (reported by an assertion only)."
  },
  {
   "property": "C145",
   "status": "partial",
   "theorems": [
    "sync_queue_throw_partial",
    "bounded_queue_throw_partial",
    "priority_queue_throw_partial",
    "priority_queue_push_throw_refuted",
    "priority_queue_pull_throw_refuted",
    "queue_pull_value_refuted",
    "queue_pull_move_refuted"
   ],
   "note": "All or nothing for sync_queue, sync_deque and sync_bounded_queue if a move that throws leaves its source alone and pull() by value has a construction that does not throw (documented requirement). sync_priority_queue: push leaves the element in the queue if a comparison throws; pull(elem) loses the element if the assignment throws."
  },
  {
   "property": "C146",
   "status": "partial",
   "theorems": [
    "sync_queue_throw_wakes_partial",
    "priority_queue_throw_wakes_partial",
    "bounded_queue_throw_wakes_partial",
    "priority_queue_throw_wakes_refuted",
    "bounded_queue_throw_wakes_refuted",
    "bounded_queue_push_throw_wakes_refuted"
   ],
   "note": "True of sync_queue and sync_deque (notify_all). sync_bounded_queue uses notify_one: a woken call that throws has used up the notification and another one sleeps on beside an element or a free place; proved: at most one element (place) per call that threw. sync_priority_queue: push whose comparison throws leaves an element without notifying. close, interruption and timeouts are left out."
  },
  {
   "property": "C147",
   "status": "partial",
   "theorems": [
    "tick_count_exact_partial",
    "tick_count_prompt_partial",
    "tick_count_never_back_refuted",
    "tick_count_exact_refuted"
   ],
   "note": "Proved as long as no value compared with is 49.7 days old, which follows from bounds on the calls and the refreshes (2*D1+D2 < 2^32 ms), except for calls made before the first one has returned. False: when the first calls of a program race while the 32-bit counter wraps around, later values are smaller by 49.7 days; without refreshes a wrap-around is missed."
  },
  {
   "property": "C149",
   "status": "partial",
   "theorems": [
    "arguments_accepted_partial",
    "arguments_accepted_refuted"
   ],
   "note": "Exactly which kinds each function accepts is proved. False: then rejects every function object that is an lvalue (or const), task_region_handle::run those that are non-const lvalues."
  },
  {
   "property": "C148",
   "status": "partial",
   "theorems": [
    "lvalue_arguments_copied_partial",
    "lvalue_argument_copied_iff_partial",
    "lvalue_arguments_copied_refuted",
    "lvalue_twice_refuted",
    "rvalue_arguments_taken",
    "arguments_delivered",
    "once_args_delivered",
    "once_args_copied_partial",
    "once_args_copied_refuted"
   ],
   "note": "Proved for const lvalues of all functions but run, for the others of all but four, and for any sequence of such calls. False for future::get_or (when there is an exception), fallback_to, user_scheduler::submit and submit through on(ex) of a scheduler, which use boost::move on a T&& parameter that can be the caller's object, and for task_region_handle::run, which keeps a reference to a const lvalue; and for call_once without variadic templates, which forwards its second argument as if it had the type of the first."
  },
  {
   "property": "C150",
   "status": "partial",
   "theorems": [
    "outcome_stable",
    "outcome_stable_partial",
    "outcome_change_partial",
    "outcome_ready",
    "outcome_stable_refuted"
   ],
   "note": "Proved in full for promises and for outcomes set at thread exit; for producers that store the result of a function, proved when no launch of a continuation throws. Otherwise false: value stored and visible, then replaced by the exception of the launch, because both are in the same try block (outcome_stable_refuted); outcome_change_partial shows that nothing else can change."
  },
  {
   "property": "C151",
   "status": "partial",
   "theorems": [
    "no_escape_partial",
    "no_escape_refuted",
    "no_escape_at_exit_refuted"
   ],
   "note": "False: if the function given to async has thrown and a launch throws in the handler, or a launch throws at thread exit, the exception leaves the thread function or a destructor. Proved: this needs a launch that threw and, for functions, a function that threw."
  },
  {
   "property": "C152",
   "status": "partial",
   "theorems": [
    "executor_constructor",
    "executor_constructor_partial",
    "executor_constructor_terminates",
    "executor_constructor_refuted"
   ],
   "note": "Proved in full for serial_executor, scheduler, scheduling_adaptor; for the pools if no failure comes after the start of a thread. False otherwise: basic_thread_pool destroys the queue, then the thread objects, without joining; scheduled_thread_pool has no handler at all. With a terminating ~thread the program always ends (executor_constructor_terminates), with a detaching one the workers run on with a destroyed pool."
  },
  {
   "property": "C153",
   "status": "partial",
   "theorems": [
    "submit_all_or_nothing",
    "create_thread_partial",
    "create_thread_refuted"
   ],
   "note": "Proved in full for thread_executor::submit, which reserves first. False for create_thread, which starts the thread before it grows the list: it can throw although the function runs (or, with a terminating ~thread, end the program). Proved for create_thread when the failure is that of the start."
  },
  {
   "property": "C154",
   "status": "proved",
   "theorems": [
    "once_effects_visible",
    "once_effects_visible_epoch",
    "once_effects_visible_windows"
   ],
   "note": "The epoch variant for up to W-3 initialisations (W = 2^32), as in C21; its racy read of the flag is taken to be a relaxed load."
  },
  {
   "property": "C155",
   "status": "proved",
   "theorems": [
    "once_executions_ordered",
    "once_executions_ordered_epoch",
    "once_executions_ordered_windows"
   ],
   "note": "The epoch variant for up to W-3 initialisations, as in C21."
  },
  {
   "property": "C156",
   "status": "proved",
   "theorems": [
    "C156_effects_seen",
    "C156_exclusive",
    "C156_try_lock_exact"
   ],
   "note": "Interlocked operations are acquire and release; the plain reads of active_count may be stale; the event and its synchronisation are not used."
  },
  {
   "property": "C157",
   "status": "proved",
   "theorems": [
    "C157_exclusive",
    "C157_owner_never_waits",
    "C157_balanced",
    "C157_try_lock_exact",
    "C157_effects_seen",
    "C157_count_safe"
   ],
   "note": "The underlying mutex is abstract and passes on what its owners see (C156). Ids of threads that have ended are not used again in the model."
  },
  {
   "property": "C158",
   "status": "proved",
   "theorems": [
    "C158_exclusion",
    "C158_race_free",
    "C158_try_lock_synchronised",
    "C158_no_lost_wakeup",
    "C158_try_lock_refuted"
   ],
   "note": "For all threads, schedules and stale reads. C158_try_lock_refuted shows that a caller that has not synchronised may fail."
  },
  {
   "property": "C159",
   "status": "proved",
   "theorems": [
    "C159_no_use_after_free",
    "C159_frees_see",
    "C159_free_after_end",
    "C159_no_leak",
    "C159_ids_distinct",
    "C159_gone_with_object_refuted",
    "C159_freed_by_itself_refuted"
   ],
   "note": "For all threads, schedules and allocators. The refuted theorems show that an id keeps the function object of a joined thread, and that another thread may destroy it."
  },
  {
   "property": "C160",
   "status": "proved",
   "theorems": [
    "C160_overlooks_nobody",
    "C160_no_surplus",
    "C160_wakes_if_all_known",
    "C160_wakes_if_any_refuted"
   ],
   "note": "For all threads, schedules and stale reads. C160_wakes_if_any_refuted shows that a notifier that has not synchronised with the waiting thread may do nothing (which the C++ standard allows)."
  },
  {
   "property": "C161",
   "status": "partial",
   "theorems": [
    "C161_interrupts_all",
    "C161_interrupts_members",
    "C161_joins_all",
    "C161_goes_on_partial",
    "C161_goes_on_refuted",
    "C161_no_clash_refuted"
   ],
   "note": "Completeness is proved in full. That interrupt_all does not wait is proved if no create_thread or remove_thread is in progress and refuted otherwise (a deadlock); that interrupt_all and join_all do not access a thread object in conflict is refuted."
  }
 ]
}