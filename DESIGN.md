# Formal model of boostorg/thread in Rocq/Coq 8.16.1

All sources are in `rocq/theories` (logical name `Verif`).  Build:
`cd rocq && coq_makefile -f _CoqProject -o Makefile && make -j4`.

## Organisation

For each component `X` of the library:

* `X_Model.v`  - executable Gallina transcription of the C++ code, every definition with the
  file and lines it models; simplifications are named in the same comment.  No proofs.
* `X_Spec.v` or a *Specification* section at the top of `X_Props.v` - the vocabulary in which the
  property is stated (sequences of values, who owns what, who is blocked), independent of the
  model's helper functions.
* `X_Proofs.v` - invariants and lemmas.
* `X_Props.v`  - only the property theorems, each closed by `exact`, followed by
  `Print Assumptions`, and beside each an `Example` that shows that its hypotheses are met by a
  concrete non-trivial case (usually a computed run).

### Execution model for concurrent classes (`Monitor.v`)

Nearly all concurrent classes of the library are monitors: plain data guarded by one
`boost::mutex`, with condition variables.  `Monitor.v` defines, once and for all, an executable
interleaving machine for them: any number of threads; each call is a sequence of *fragments*
(the code between acquiring the mutex and giving it up); a fragment is atomic; `wait` gives up the
mutex and sleeps atomically; `notify_one` wakes one sleeper of the scheduler's choice, `notify_all`
all; spurious wake-ups, time-outs and interruptions may happen at any time; notifications made
after unlocking are separate steps, so other threads may run in between.  `step` is a function of
the configuration and a label that contains all of the scheduler's choices; `reachable` quantifies
over all finite label sequences, with no bound on threads, steps or values.  Undefined behaviour is
a distinct thread status (`Crashed`).  A ghost history records calls and completed operations.

*Blocked for ever* is stated through `quiescent`: no thread can take a step by itself (all are
outside calls or asleep).  "No lost wake-up" is: in every reachable quiescent configuration, the
condition each sleeper waits for is false.  The converse failure is proved by an explicit run.

### Findings

When the faithful model violates a property, the theorem proved is its negation, named
`..._refuted`, by a computed run of the model, and (where useful) the property under the exact
extra hypothesis that makes it true, named `..._partial`.  Such properties have status `partial`
in `MANIFEST.json` and are listed under *Findings* below.

## Trusted base

* Coq's kernel (and `vm_compute`, which is part of it).  No axioms: `Print Assumptions` under each
  property theorem prints `Closed under the global context` unless listed otherwise in the table
  at the end of this file.
* The reading of the C++ code: nothing ties the model to the code except the citations.
* The memory model: code under one mutex is atomic and sequentially consistent (data-race freedom
  by locking); atomics used by `call_once` are sequentially consistent or stronger than needed.
* `pthread_mutex_*`, `pthread_cond_*`, `pthread_create/join/detach`, `pthread_key_*` behave as POSIX
  says; they are the primitives of the machine, their failure codes are not modelled except where
  stated.
* Configuration: pthread platform, exceptions enabled, `BOOST_THREAD_PROVIDES_INTERRUPTIONS`,
  chrono available; other configuration macros are named where they matter.

## Plan per property

* **C01** sync_bounded_queue is a FIFO that neither loses, duplicates nor invents elements - monitor instance with the ring buffer (indices, array, waiting counters) as shared data; invariant: contents decoded from in/out/array; history theorem by induction over steps.
* **C02** sync_bounded_queue never exceeds its capacity and reports full/empty exactly - same model; decoded length <= max, status results characterised per operation.
* **C03** sync_bounded_queue::size() is the number of stored elements - same model; refuted by a run (max 3: wrapped indices), exact value proved for every reachable index pair.
* **C04** sync_bounded_queue wake-ups are never lost - same model; counting invariant (sleepers vs waiting counter vs pending notifications vs woken consumers).
* **C05** closing a sync_bounded_queue releases every blocked caller and rejects every later push - same model; closed flag monotone, no push event after close, quiescence theorem.
* **C06** sync_bounded_queue wait_push_back reports closure uniformly by its status - refuted by a run of the same model (close while wait_push_back sleeps).
* **C07** sync_bounded_queue wake-ups survive thread interruption - refuted by a run with an interruption between notify and wake-up.
* **C08** sync_queue / sync_deque are FIFO without loss or duplication - monitor instance over a list-backed queue; sync_deque has the same code modulo names.
* **C09** sync_queue / sync_deque wake-ups are never lost - counting invariant (woken or pending notifications cover elements).
* **C10** sync_queue::underlying_queue / moving a devector leaves both objects usable - sequential model of devector with front index; refuted by computation, and proved for sources whose front index is 0.
* **C11** devector behaves as a double-ended sequence - sequential refinement of devector to list.
* **C12** sync_priority_queue pulls a greatest element and conserves the multiset - sequential heap model abstracted by the standard heap contract (an oracle that returns a maximum), monitor instance for the queue around it.
* **C13** sync_timed_queue never delivers an element before its due time and delivers in due-time order - monitor instance with a clock reading supplied by the environment at each fragment.
* **C14** sync_timed_queue delivers every element that becomes due, also after close - refuted/characterised on the same model: behaviour of pulls on a closed queue with not-yet-due elements.
* **C15** latch releases waiters exactly when the count reaches zero - monitor instance; ghost count of count_down events.
* **C16** barrier releases its threads in groups of exactly n with one true per group - monitor instance; ghost arrival numbers; every return carries its group.
* **C17** barrier interrupted waiters do not disturb the group count - refuted by a run with interruption.
* **C18** completion_latch waits return once the count has reached zero - monitor instance; refuted by quiescent runs.
* **C19** call_once runs the function to completion exactly once - interleaving machine over the atomic flag states with the region mutex/cv of once_atomic.cpp; history of callable executions.
* **C20** call_once retries after an exception and leaves no thread behind - same model; quiescence theorem.
* **C21** epoch-based call_once (non-atomic variant) has the same guarantee - model of the epoch protocol with per-thread cached epochs; invariant relating caches to flags.
* **C22** shared_mutex: an exclusive owner excludes every other owner - monitor instance of state_data; ghost ownership from returned calls.
* **C23** shared_mutex: no wake-up is lost - same model; quiescence theorem.
* **C24** shared_mutex: upgrade to exclusive is atomic - same model; upgrade owner excluded until conversion returns.
* **C25** shared_mutex: timed upward conversion keeps exclusion - refuted by a run.
* **C26** shared_mutex: a waiting timed upgrade is woken when the last other reader leaves - refuted by a quiescent run.
* **C27** shared_mutex: a waiting writer blocks new readers - refuted by a run; partial positive statement while the flag is set.
* **C28** thread_v2 shared_mutex/upgrade_mutex: exclusion - monitor instance over the bit-packed state word (decoded), reader field with its maximum.
* **C29** thread_v2: a timed-out lock attempt leaves the mutex as if it had not been made - refuted by runs (lost wake-up after time-out; stale reader count).
* **C30** timed_mutex (condition-variable implementation): exclusion and no lost wake-up - monitor instance (is_locked, cond).
* **C31** recursive_mutex (condition-variable implementation): counted ownership - monitor instance (is_locked, owner, count, cond).
* **C32** timed_lock(relative) returns true only if it acquired the mutex - refuted by computation over the cases of time_duration.
* **C33** lock objects release what they own exactly once - sequential model of a heap of lock objects over mutex counters with an outcome oracle.
* **C34** lock objects report misuse without touching the mutex - same model.
* **C35** boost::lock acquires all or, if it throws, none - list model of the algorithms with an oracle for every lock/try_lock call (success, failure, exception); invariant on held set.
* **C36** boost::lock never blocks while holding one of its arguments - same model; trace of blocking calls; plus a multi-thread machine: waiting threads hold nothing.
* **C37** boost::try_lock reports the first failing argument and holds nothing on failure - same model.
* **C38** synchronized_value operations are atomic and deadlock-free - interleaving model of two-object operations; refuted for self comparison.
* **C39** reverse_lock restores the lock's previous state - sequential model; refuted for a lock that does not own.
* **C40** an interruption is delivered exactly once, at an interruption point with interruption enabled - state machine of interrupt_requested/interrupt_enabled.
* **C41** a thread waiting on a condition variable when interrupted wakes up - interleaving model of interrupt() against condition_variable::wait.
* **C42** join returns only after the thread function has ended and joins at most once at OS level - monitor instance of thread_data (done, join_started, joined, detach).
* **C43** thread_specific_ptr cleans up every value exactly once - sequential model of the per-thread map and the destructor loop with re-entrant cleanup.
* **C44** at_thread_exit functions run exactly once, before joiners are released - same model as C43.
* **C45** a future becomes ready at most once and its outcome never changes - monitor instance of shared_state.
* **C46** every thread waiting for a future is released when it becomes ready - same model; quiescence theorem.
* **C47** a promise that goes away unsatisfied breaks its future - destruction proved; assignment refuted.
* **C48** deferred-notification setters keep the single-assignment guarantee - refuted by call sequences.
* **C49** future::get hands out the result exactly once - same model.
* **C50** get_or never throws the stored exception - proved for future, refuted for shared_future.
* **C51** a continuation attached with then runs exactly once, after its parent is ready - same model with continuation lists.
* **C52** waiting on a continuation of a deferred future returns - refuted by a quiescent run; proved for the default policy.
* **C53** a packaged_task runs at most once and its reset gives a fresh result - at-most-once proved, reset refuted.
* **C54** a deferred async function runs exactly once, in the first thread that waits - same model with deferred execution.
* **C55** wait_for_any returns a ready future and terminates - index readiness proved; deadlock refuted by a run of two callers with opposite orders.
* **C56** make_shared_future() / make_ready_future return futures with the requested result - refuted for make_shared_future(), proved for the others.
* **C57** a thread pool runs every accepted closure exactly once - machine of workers over the queue model.
* **C58** destroying a thread pool runs all accepted closures - refuted by a run with an interrupted closure.
* **C59** serial_executor runs closures one at a time in submission order - machine of the serial worker.
* **C60** loop_executor runs every closure exactly once, in order - model over sync_queue with devector; refuted through the moved-from devector.
* **C61** scheduled executors never run a task before its time - same as C13 with workers.
* **C62** platform_duration / timespec conversions are exact and normalised - integer arithmetic over Z with C truncating division; negative values refute normalisation.
* **C63** thread_group keeps each thread exactly once and joins all - interleaving model of add/remove; refuted for concurrent duplicate add.
* **C64** parsing of CPU information accepts exactly decimal numbers - string functions over list of bytes; refuted for embedded NUL, proved for NUL-free strings.
* **C65** sync_timed_queue::pull_until is well defined for every clock - same model as C13 with a clock that may be set back; refuted by a run, and the only place where it can happen is proved.
* **C66** a throwing barrier completion function does not strand the group - same model as C16 with a completion function that may throw; refuted by a run, and the damage is characterised.
* **C67** thread_v2: a blocked thread waits for an owner - same model as C28; counting invariant on sleepers at both gates, lexicographic measure for coming to rest.
* **C68** physical_concurrency counts distinct cores - the whole loop over the lines of /proc/cpuinfo, over byte lists; induction over the file.
* **C69** condition_variable notifications are not lost - notifications: same model as C40 (IT_Model); path-based theorems notify_all_wakes, notify_one_wakes; the swallowed notification is refuted by a run.
* **C70** disable_interruption and restore_interruption nest - interruption scopes: IT_Model do_scope; the ideal nesting semantics is computed from the history, compared with the flag.
* **C71** Actions registered for thread exit happen when the thread exits - thread exit actions: JN_Model counts the shared_ptr references to the thread data, whose last drop performs them; exit_actions_partial, exit_actions_at_exit_refuted.
* **C72** serial_executor_cont runs closures one at a time in submission order, and its destructor waits for them - serial_executor_cont: chain of continuations on an abstract executor (SY_Model); phase invariant; serial_cont_order, serial_cont_destroy_refuted.
* **C73** Windows: a mutex has at most one owner - Windows mutex, exclusion: WM_Model runs every interlocked operation and event wait of basic_timed_mutex as a step; the lock flag equals the number of owners.
* **C74** Windows: nobody is left waiting for a free mutex - Windows mutex, no lost wake-up: same model; event flag = pending SetEvent + event + threads that consumed it; free and waiters imply event flag or an unlock under way.
* **C75** Windows: a mutex can be destroyed once it is free - Windows mutex, destruction: refuted by a run of three threads; holds when nobody is inside lock at the release.
* **C76** Windows: recursive mutexes - Windows recursive mutexes: the thread id and the counter over an abstract mutex; C76_*.
* **C77** Windows: notify_one wakes a thread that was waiting - Windows condition variable, notify_one: WC_Model.v, generations and semaphores; the stolen wake-up as refutation; counting invariant per generation for what holds.
* **C78** Windows: notify_all wakes every thread that was waiting - Windows condition variable, notify_all: same model; refuted after an unconsumed notify_one; proved when some wait has not been notified, and without notify_one.
* **C79** when_all: its future holds all the futures, ready, in order - when_all's value: WN_Model.v, the call and its thread among arbitrary other threads; invariant, measure.
* **C80** when_all executes deferred functions before it returns, once, and waits for nothing else - when_all and deferred functions: same model; refuted for the tuple overload (short-circuit), proved for ranges.
* **C81** when_any: first ready or deferred future in the order supplied - when_any: same model; order refuted for the tuple overload (checked from last to first), proved for ranges.
* **C82** when_all and when_any throw when no thread can be started - thread creation failure in when_all/when_any: same model; the call hangs in the destructor of its state (refuted), throws in BOOST_THREAD_VERSION 5.
* **C83** async with launch::async runs the function once and hands out its outcome - async: AS_Model.v, the call, its thread and any number of clients that copy, wait for and drop the futures; ownership count explicit; invariant.
* **C84** The last future of async waits in its destructor - destructor of async's futures: same model; refuted by a run (the thread owns the state too), the state outlives the function.
* **C85** async throws when it cannot start its thread - thread creation failure in async: same model; hangs in version 4 (refuted), throws otherwise.
* **C86** async honours the launch policy - launch policies of async: bit tests; refuted without variadic templates (std::terminate for launch::deferred).
* **C87** Timed waits do not time out early - TW: a timed call is a machine that puts requests (clock, predicate, OS wait) to an environment that answers at moments; induction over the moments. Refuted for a predicate that changes between two evaluations under the lock.
* **C88** A clock that is set forward ends a timed wait soon - TW: same machine; invariant that bounds the internal time at every point of the loop. Refuted for the waits without predicate.
* **C89** Sleeps last at least as long as asked for - TW: same machine; the sleep loops. Refuted for no_interruption_point::sleep_for (nanosleep is not restarted after a signal).
* **C90** timed_wait with a duration returns true only when woken - TW: same machine; case analysis over the special durations. Refuted for neg_infin and not_a_date_time.
* **C91** Timed calls work for all times - TW: same machine with 64-bit arithmetic and the operating system's rule for deadlines before its epoch; refuted in several ways, with the range in which the calls are well defined.
* **C92** task_region joins all its tasks - TR: regions, bodies and tasks of any depth as a transition system with the set of tasks as state; invariant linking it to the history of events.
* **C93** task_region reports each exception once - TR: same model; refuted when the body calls wait.
* **C94** A failed task cancels its region - TR: same model.
* **C95** task_region always returns - TR: same model; a measure that decreases with every step and an argument by the largest task that has not ended; refuted for nested regions on one pool.
* **C96** thread_executor runs every accepted closure once and its destructor waits - TX: transition system of users, closures (trees of commands) and the destructor; invariant relating the history with the state.
* **C97** thread_executor can be used by its closures until they return - TX: same model; a measure that decreases with every step; refuted for closures that use their executor while its destructor runs.
* **C98** inline_executor runs a closure within submit - TX: threads with stacks of closures; the history determines the stack.
* **C99** A thread is represented by at most one object - TH: transition system of threads that own objects; an invariant counts the objects for each thread.
* **C100** scoped_thread and thread_guard do what their functor says - TH: same model; the history, the pending destructor and the interruption flag are related by an invariant.
* **C101** Programs of joining scoped_threads are structured - TH: a thread that ends owns no objects, and objects of live threads are owned by their ancestors.
* **C102** Joins do not deadlock when objects are handed down only - TH: a decreasing measure; a rank on threads that decreases from owner to owned.
* **C103** Threads are never abandoned silently - TH: case analysis on the step that terminates the program, with the invariants.
* **C104** Windows shared_mutex: exclusion - WS: one step per read, compare-and-exchange, semaphore operation; an invariant equates the fields of the word with sums over the threads.
* **C105** Windows shared_mutex: no lost wake-ups - WS: same model; inequalities between tokens, registrations and sleeping threads; a free mutex with registered writers has a token or an active writer.
* **C106** Windows shared_mutex: readers wait for writers only - WS: same model; refuted by two runs; proved for programs without timed exclusive locks and lock_upgrade by two more invariants.
* **C107** Windows shared_mutex: lock_error only when the counters are full - WS: same model; the inequalities become equations without time-outs; refuted by a run that loses 127 wake-ups.
* **C108** Windows: call_once executes the function to completion exactly once - WO: model of win32/once.hpp, one flag, any threads, every access and API call a step; sums over the threads (who is in the critical part) and history predicates, by induction.
* **C109** Windows: call_once leaves nobody behind - WO: same model; a waiter implies that the event is signalled, the function is being executed or a thread is about to signal it; a rank for what happens after completion.
* **C110** Windows: call_once waits asleep - WO: same model; rank per thread without exceptions; refuted by a run with a cycle.
* **C111** Windows: flags of call_once do not interfere - WO: int_to_string and name_once_mutex as functions on numbers; injectivity by induction on the digits.
* **C112** Windows: interruption requests are delivered exactly once - WI: model of interruption, sleeping and joining in src/win32/thread.cpp; predicates on the history, by induction over reachable states.
* **C113** Windows: interrupt wakes a sleeping or joining thread - WI: same model; what a thread that cannot go on is waiting for, and a rank bounding a thread's own steps.
* **C114** Windows: timed joins and sleeps return the truth - WI: same model; predicate on the history.
* **C115** Windows: timed joins and sleeps end - WI: same model with two clocks; an invariant on when the present wait is over; refuted for times 2^32-1 ms ahead if waitable timers fail.
* **C116** Windows: a join ends when the thread has ended - WI: same model; refuted by a run in which two threads join one object.
* **C117** unwrap() delivers the outcome of the inner future - UW_Model: shared states with continuations, frames of launch_continuation per thread; specification resolves over the history; invariant counting where each pending continuation is (list of a state, frame of a thread).
* **C118** An unwrapped future becomes ready when the outer and inner futures are - UW_Model: at rest, follow the chain of continuations (injective, starts at a user future) to a source; measure for the step bound. Refuted for deferred functions.
* **C119** unwrap() of a future that delivers an invalid future - UW_Model: refuted (future_uninitialized is stored).
* **C120** Scheduled closures start once, not early, and where they were sent - SR_Model.v: the queue of the scheduler as a collection, its threads, the wrappers and executors below as a transition system; invariant over all runs, and an analysis of the states where nothing can go on.
* **C121** Closing the executor below a scheduler does not end the program - SR_Model.v: refuted by a run that closes the executor while a resubmission is pending; the two possible causes of std::terminate by the invariant.
* **C122** close() of a scheduler lets its threads work until no closure is left - SR_Model.v: refuted by a closure that is not yet due at close(); proved for those that are due.
* **C123** All closures of a scheduler complete before its destructor does - SR_Model.v: refuted by a pending closure, and by a due one that loses against the interruption; proved that running closures end first, and due ones without the race.
* **C124** The destructor of a scheduler ends - SR_Model.v: in every state where nothing can go on and the destructor has not returned, a closure is being executed.
* **C125** scheduling_adaptor executes closures on the executor it is given - SR_Model.v: refuted by any run of the adaptor; its thread executes each closure once and not early.
* **C126** On Windows a waiting writer keeps new readers out - WS_Model.v: proved for programs without timed exclusive locks and lock_upgrade by an invariant (a writer that was woken sets the flag again); refuted with each of them by a run.
* **C127** Continuations are carried out by the right executor - EC_Model.v: shared states with counted owners; invariant linking the chain of executor references with the history; refuted by async(ex, f).then(g).then(h); proved that submissions go where they belong, and that a dangling reference needs two inheriting links and a destroyed ancestor.
* **C128** user_scheduler starts every closure at most once, in the order of submission, and loses none - Small-step model of user_scheduler over the devector of SQ_Model, threads with stacks of calls and closures; invariant over all steps. Refuted by run_queued_closures (inverted loop condition), proved without it, and its actual effect proved for every state.
* **C129** user_scheduler::loop works until there are no more closures to run - Same model; refuted by a closure that throws after close, proved up to such a closure.
* **C130** The destructor of user_scheduler completes after every closure - Same model; refuted by a pending closure, proved for started closures and for drained schedulers.
* **C131** try_executing_one reports whether a closure has been executed - Same model; refuted by a closure that throws, proved up to such a closure.
* **C132** A testable_mutex says truthfully who holds it - Small-step model with separate steps for the wrapped mutex and the id; invariant over all interleavings, queries against the observed history.
* **C133** externally_locked gives access only under its mutex, to one thread at a time - Small-step model of guards, recursive and shared mutexes and cloaked objects, with the precondition check as a parameter; invariant over all interleavings. Refuted for the default configuration and for shared locks.
* **C134** Output through one guard of an externally_locked_stream is contiguous - Same model, with moves of guards; invariant that an undestroyed guard still holds the mutex for its thread.
* **C135** thread_specific_ptr and at_thread_exit work in threads not started by the library - TODO
* **C136** What is asked for the end of a thread is done when it ends, in every thread - TODO
* **C137** condition_variable_any::wait gives up and takes back exactly the caller's lock - Small-step model of condition_variable_any with any number of threads and user mutexes, locks that may throw; legality of every event of every history by invariants. Refuted for exceptions of lock().
* **C138** condition_variable_any loses no notification, whatever locks are used with it - Same model; before/after of releases and notifications in the history, one waker per notify_one, stuck states.
* **C139** A condition variable may be destroyed as soon as all waiters have been notified - Same model with destruction and use after destruction as undefined behaviour; refuted under the documented precondition, proved under a stronger one.
* **C140** Two thread ids are equal exactly if they stand for the same thread - Model of ids as handles or addresses that the system may give out again when they are no longer in use; uniqueness invariants. Refuted in the default configuration.
* **C141** join() reports a deadlock exactly when a thread joins itself - Same model with join in steps; refuted in the default configuration, proved in the other.
* **C142** xtime and system_time are converted without loss - TODO
* **C143** xtime_cmp orders times - TODO
* **C144** The stack size asked for is granted - TODO
* **C145** A queue operation that throws leaves the queue as it was - QX_Model: the bodies of push and pull with every operation on an element able to throw and what it leaves unspecified; algebraic. C146 the same with sleeping threads and notifications; counting invariant.
* **C146** A call that throws leaves no other call asleep - TODO
* **C147** Old Windows: the 64-bit tick count is exact and never goes back - GT_Model: load, GetTickCount and store as separate steps of any number of threads, time in Z; invariant that the stored value is the exact time of an earlier moment.
* **C148** An argument passed as an lvalue is copied, not moved from - Follow the bodies from the caller's expression to the stored object, with the rules for overloads, reference collapsing and initialisation as executable functions; induction over sequences of calls (VC).
* **C149** Arguments may be lvalues, const lvalues or rvalues - Same model; a rejected call is a distinct outcome (VC).
* **C150** The outcome of a future, once visible, does not change - C151 outcome visibility: one shared state, one producer, observers, continuations whose launch may throw; invariant over the transition system, statements over the history of observations
* **C151** A continuation that cannot be launched does not end the program - TODO
* **C152** An executor whose constructor throws leaves nothing behind - C153 constructors and calls that start threads and may fail: instruction lists as C++ executes them (body, unwinding, destructor), any interleaving with the workers; invariant with a check of the destructor code by recursion on the instruction list
* **C153** A call that throws instead of starting a thread has not started one - TODO
* **C154** What the function of call_once has done is visible to every thread that returns from call_once - C155 call_once under a view-based release/acquire memory model: flags as lists of timestamped writes, per-thread views, the mutex as a carrier of views; a shared invariant on who has taken a flag, one on timestamps (holder of the mutex past every write; on Windows no gaps between read-modify-writes) and one on what is seen
* **C155** Executions of the function of call_once are ordered even where memory is not - TODO
* **C156** Windows: what is done under a mutex is seen by its next owner - The code of WM_Model.v run under the view-based release/acquire memory (WV_Model); invariant: writes of the state have no gaps, so that an interlocked write has read the newest one, whose view, or the owner's, contains all effects.
* **C157** Windows: a recursive mutex recognises its owner though it reads the owner's id unlocked - The code of WM_Model.v for the recursive mutex run under the view-based release/acquire memory (RV_Model), on top of a mutex that passes on views (C156); invariant: a write of a thread's id is either the newest one, of the current owner, or the thread is past it.
* **C158** On Windows shared_mutex excludes and passes on effects although threads read its state stale - release/acquire memory around the code of WS_Model.v: exclusion, absence of data races between owners and try_lock of an unused mutex by an invariant over views; the loss of try_lock without synchronisation is refuted by a run
* **C159** On Windows the control blocks of threads are destroyed exactly once, after all use, and neither early nor never - WR_Model.v models the reference count with its increments and decrements under release/acquire memory, the pointers of thread objects, ids, calls and the running thread, and an allocator that reuses addresses; an invariant equates the count with the number of pointers and places every access in the view of a pointer's thread or of the count.
* **C160** On Windows a notification overlooks no thread that it could know to be waiting, although it first reads the number of waiting threads unlocked - WT_Model.v models the writes to the count under the internal mutex, the unlocked acquire read that may return any write the caller's view allows, and synchronisation by the program; an invariant ties every write to a moment of the history that includes all the waits known to those who may read it.
* **C161** thread_group::interrupt_all interrupts every thread of the group, also while another thread is in join_all - GI_Model.v models the loops of interrupt_all and join_all step by step under the group's shared mutex, whose waiting writers keep readers out; an invariant relates the rest of each loop's list to what has been requested since the call.

## Findings

Each is a theorem `..._refuted` about the model, proved from a computed execution, unless marked *(read)*: those were seen while reading
the code and are not theorems.  Paths are relative to `include/boost/thread`.

Queues
* Exceptions (C145, C146): `sync_priority_queue::push` whose comparison throws leaves the element in the queue and notifies nobody; `sync_priority_queue::pull(elem)`, `try_pull`, ... lose the element if the assignment to elem throws (`elem = data_.pull()`); in `sync_bounded_queue` a woken pull or push whose assignment throws has used up the only notification, so another call sleeps on beside an element or a free place.
* `sync_bounded_queue::size()` (sync_bounded_queue.hpp:127-131) uses the capacity instead of the buffer length as modulus: one too small
  when the ring has wrapped (C03).
* A `wait_push_back` that is asleep when the queue is closed throws instead of returning `closed` (C06).
* An interrupted waiter of a bounded queue keeps the notification it was given; another waiter sleeps on although there is something to do (C07).
* `underlying_queue()` of `sync_queue`: devector's move leaves the source's front index behind; afterwards `size()` is 2^64-k and pulling is
  undefined (C10); `loop_executor::run_queued_closures` uses it (C60).
* `sync_timed_queue` with a clock that can be set back: `pull_until` reads the top of an empty heap (C65).

Synchronisation
* `~condition_variable_any` (and `~condition_variable` with interruptions): the documented precondition, that all waiting threads have been notified though their calls need not have returned, is not enough. A notified thread still has to lock and unlock `internal_mutex`, which the destructor has destroyed (C139).
* `condition_variable_any::wait`: when `lock()` throws in `guard.deactivate()`, `m` is still set and `~lock_on_exit` calls `lock()` a second time during unwinding; if it throws again the program ends (C137).
* `barrier`: an interrupted participant stays counted (C17); a completion function that throws leaves the count at 0 and wakes nobody (C66); a thread that
  sleeps through 2^32 groups is not released (C16_wraparound_refuted).
* `completion_latch`: wait after completion blocks; try_wait and timed waits block without limit; the last count_down blocks if nobody waits (C18).
* Epoch-based `call_once`: initialisation number 2^32-2 hangs (C21_range_refuted).
* `shared_mutex` (pthread): a timed shared-to-exclusive conversion breaks exclusion or hangs a waiting upgrader (C25); a waiter for the last other reader sleeps until its
  deadline (C26); the writer-preference flag is cleared and not set again (C27).
* `v2::shared_mutex`: when more threads than the reader count can hold (2^30-1) want shared ownership, a reader can sleep for ever on a free mutex:
  one notification is sent when the count drops below its limit, none afterwards (C67).
* `v2::shared_mutex`: timed lock that gives up at the second gate does not wake the first; stale count restored; interrupted lock leaves the mutex
  closed (C29).
* `timed_lock(neg_infin)` and `timed_lock(not_a_date_time)` return true without locking (C32).
* `reverse_lock` locks a mutex that was not owned, and locks exclusively what was shared (C39).
* `synchronized_value`: `a == a` never returns (C38).
* `notify_one` chosen waiter that is interrupted throws and passes the notification to nobody (C69); `restore_interruption` nested in
  `restore_interruption` disables interruption at its end (C70).
* Negative times: `timespec` with negative `tv_nsec`, hence `condition_error` from `wait_until`; `getMs` overflow; `getMax` cannot be compared (C62).
* `string_to_unsigned` accepts what follows an embedded NUL (C64).
* `externally_locked::get` accepts a lock of any mutex of the right type in the default configuration: BOOST_THREAD_ASSERT_PRECONDITION is empty unless BOOST_THREAD_THROW_IF_PRECONDITION_NOT_SATISFIED is
  defined, while its comment promises lock_error when that macro is *not* defined (externally_locked.hpp:111-123; `cloak_default_refuted`).  It returns a `T&` for a
  `nested_strict_lock<shared_lock<M> >` (132-137), so two readers may write at the same time (`cloak_shared_refuted`).
* *(read)* `externally_locked_stream::bypass()` is a const member that constructs a guard from a non-const reference to `*this`: it does not compile when used (externally_locked_stream.hpp:113-117).

Timed waiting
* xtime (C142): the conversion to system_time adds 500 ns and rounds to microseconds, so a wait until an xtime can end up to half a microsecond early; get_xtime of a time before 1970 has a negative nsec, and converting it back is off by one microsecond; `static_cast<long>(sec)` loses times from 2038 on where long has 32 bits.
* `try_lock_until`, `try_lock_for` and `timed_lock` of the timed mutexes loop for ever (or fail an assertion) when the mutex is locked and the time lies further in the past than
  the machine has been running: the operating system rejects the negative deadline and the loop takes only ETIMEDOUT for a time-out
  (pthread/mutex.hpp:232-250, recursive_mutex.hpp:345-366; C91). E.g. `try_lock_until(system_clock::time_point())`.
* In the same case `wait_until` and `timed_wait` without predicate, `wait_for` and `try_join_until` throw `condition_error`; `wait_for(duration::max())` overflows (C91).
* `wait_until(lock, t)` and `timed_wait(lock, t)` without predicate compute the duration once and do not notice that the clock is set (C88).
* `no_interruption_point::sleep_for` returns early when a signal handler runs: nanosleep is not restarted (src/pthread/thread.cpp:457; C89).
* `timed_wait` with the duration neg_infin or not_a_date_time returns true at once (pthread/condition_variable_fwd.hpp:127-156; C90).

Threads
* thread_group::create_thread can throw after the thread has been started (C153, `create_thread_refuted`): the list node is allocated last; the thread object is then destroyed while joinable. thread_executor::submit reserves first and is right (`submit_all_or_nothing`).
* call_once with two or three arguments, when there are no variadic templates, forwards all of them as if they had the type of the first (pthread/once.hpp 464, 512-513): an lvalue after an rvalue is moved from (C148, `once_args_copied_refuted`).
* set_stack_size (C144): `size+page_size-1` wraps around for sizes near the largest one; the rounded size is 0, pthread_attr_setstacksize fails, and only BOOST_VERIFY notices.
* `thread::id` is a `pthread_t` by default: the id of a joined thread can be equal to that of a later one (C140), and a thread that has got the handle of a thread just joined is told by `join()` on the same object that it joins itself (C141).
* Actions promised "at thread exit" (`notify_all_at_thread_exit`, `*_at_thread_exit` futures) happen when the last reference to the
  thread's data goes away, which may be much later and in another thread (C71).
* `thread_specific_ptr`: a cleanup function that uses its own object has the value cleaned up twice, or an erased node is used (C43). *(read)* a key that is an
  address can be reused by a new object while another thread still holds a value of the old one.
* In a thread the library has not started, `notify_all_at_thread_exit` notifies nobody and leaves the mutex locked for ever once the thread has used a
  `thread_specific_ptr` or `at_thread_exit` (otherwise it unlocks it at once), and `set_value_at_thread_exit` never makes its future ready (src/pthread/thread.cpp:207-233, 790-809; C136).
* While such a thread ends, cleanup functions do not find the values of other `thread_specific_ptr` objects, and values they install are lost after PTHREAD_DESTRUCTOR_ITERATIONS rounds (C135).
* `thread_group`: two concurrent `add_thread` of one thread both succeed; a joined thread is refused; `join_all` holds the lock while joining (C63).
* `thread_group::interrupt_all` can wait for ever (C161, `C161_goes_on_refuted`): `join_all` holds the group's mutex shared while it waits for a thread that waits to be interrupted; a `create_thread` (or `remove_thread`) that arrives then waits for the mutex and keeps `interrupt_all` out. Without such a call `interrupt_all` proceeds, but it reads thread objects that `join_all` may be resetting (src/pthread/thread.cpp 310-313, 351-353: no lock), a data race (`C161_no_clash_refuted`).
* *(read)* concurrent calls of `join` on one object race on `thread_info`.
* Move assignment to a `scoped_thread` is an interruption point, unlike the destructors; interrupted, it leaves both objects as they were (scoped_thread.hpp:197; C100).
  A `scoped_thread` that is destroyed by the thread it represents terminates the program (C103).

Futures
* A value already visible can be replaced by an exception (C150, `outcome_stable_refuted`): async, packaged_task, executor tasks, continuations and deferred functions store the function's value and launch the attached continuations inside one try block. If a launch throws, the handler stores that exception over the value, which other threads may already have seen.
* A continuation that cannot be launched can end the program (C151, `no_escape_refuted`, `no_escape_at_exit_refuted`): when the function given to async has thrown, the launches are made in the handler and their exceptions leave the thread function; launches at thread exit are made in the destructor of the thread's data.
* `future::get_or(x)` and `future::fallback_to(x)` with an lvalue `x` move from `x` (future.hpp 1807-1831, 5378-5382): `R2&&` with deduced R2 accepts lvalues, and boost::move is used instead of boost::forward. get_or does so only if the future holds an exception, fallback_to always (C148, `lvalue_twice_refuted`).
* `then(f)` with a function object `f` that is an lvalue does not compile, although the documentation requires DECAY_COPY(forward<F>(func)) only (future_ref.qbk 920): the constructor of continuation_shared_state takes `Fp&&` with Fp a parameter of the class (future.hpp 4488) (C149).
* `promise` move assignment abandons the old state silently (C47); the deferred setters look only for a value (C48); in the default configuration a second `get`
  returns a moved-from value, and with INVALID_AFTER_GET an interrupted `get` loses the result (C49); `shared_future::get_or` throws (C50);
  `packaged_task::reset` keeps the result (C53); `make_shared_future()` holds broken_promise (C56).
* A continuation launch that throws drops the later continuations (C51); `then` with a policy other than deferred on a deferred parent never runs; an interrupted wait on a
  deferred continuation makes later waits hang (C52).
* `wait_for_any`: the same futures in opposite orders, or one future twice, deadlock (C55).
* `unwrap()` of a deferred outer or inner future: nobody executes the deferred function, waiting for the unwrapped future does not end (C118); an invalid inner future
  gives future_uninitialized, documented is broken_promise (C119).
* *(read)* `make_future(lvalue)` (future.hpp:4306-4312) moves from its argument; `set_value_at_thread_exit` (2507) does not call lazy_init; a deferred function with reference result is
  executed under the lock; in the non-variadic configuration `async(launch::deferred, ...)` terminates (3866-3986); `wait_for_any`'s iterator version counts only valid futures in one place and all of
  them in another.

Executors
* A pool whose constructor fails half-way (C152, `executor_constructor_refuted`, `executor_constructor_terminates`): basic_thread_pool closes the queue and rethrows without joining the threads already started; the queue is declared after the threads and so is destroyed while they use it, and the destructors of the joinable thread objects then terminate the program (or detach, if so configured). scheduled_thread_pool behaves the same without even closing. serial_executor, scheduler, scheduling_adaptor are right.
* `user_scheduler::submit(f)` and `sch.at(tp).on(ex).submit(f)` with an lvalue closure move from it (user_scheduler.hpp 161-164, executors/scheduler.hpp 50-54): a closure submitted twice is empty the second time (C148, `lvalue_twice_refuted`).
* `task_region_handle::run(f)` with an lvalue does not compile, and with a const lvalue keeps a reference to the caller's object (experimental/parallel/v2/task_region.hpp 85-92, 218) (C148, C149).
* `basic_thread_pool`'s destructor interrupts the workers: accepted closures may never run (C58).
* `serial_executor::try_executing_one` / `reschedule_until` overlap closures; a closure's exception is dropped (C59); `serial_executor_cont`'s destructor does not wait (C72).
* `scheduling_adaptor` never uses the executor it is given: it executes everything on its own thread (`scheduling_adaptor_uses_executor_refuted`).
* A continuation that does not name an executor refers to the executor_ref object of its parent's shared state (future.hpp:5003, 4706), which does not outlive that state: in
  `async(ex, f).then(g).then(h)` the state of f is destroyed when g is over, and launching h submits through a destroyed object (`inherited_executor_refuted`).
* A `scheduler` drops the closures not yet due at `close()` or at its destruction (`schedule_close_runs_all_refuted`, `schedule_destructor_completes_refuted`), contrary to its documentation. Its destructor also interrupts the thread, so that even a closure already due may be dropped (`schedule_destructor_completes_due_refuted`).
* Closing the executor `ex` while a closure waits for its time in `scheduler.on(ex)` ends the program: the later `ex.submit` throws inside the scheduler's thread, whose loop calls `std::terminate` (`schedule_terminates_only_by_closure_refuted`).
* `task_region`: an exception that `wait` throws is reported three times in the list that `task_region` throws: `wait_all` keeps it in the list, the
  handler adds the list again, the last `wait_all` scans the tasks again (experimental/parallel/v2/task_region.hpp:127-150, 288-292; C93).
* Nested `task_region`s on one pool deadlock: a waiting worker does not run queued tasks (C95); doc/parallel.qbk uses the overload with an executor in a recursive function.
* `thread_executor` declares its mutex after its threads, so the destructor destroys the mutex before it joins them; a closure that uses
  the executor then uses a destroyed mutex (executors/thread_executor.hpp:38-41; C97).
* `user_scheduler::run_queued_closures` (user_scheduler.hpp:187-196) loops `while (q.empty())`: it drops every queued closure unexecuted, and takes the front of an
  empty container when there is none (`scheduler_order_refuted`, `run_queued_closures_partial`).
* `user_scheduler::try_executing_one` (39-59) catches whatever a closure throws and returns false: neither std::terminate nor the exception, as its two comments say; `loop` therefore
  ends early when a closure throws after close (`loop_end_refuted`, `try_result_refuted`); the destructor leaves pending closures unexecuted (`destroyed_done_refuted`).

when_all, when_any, async
* `when_all(f1, f2, ...)` stops executing deferred functions at the last future that is not deferred: those before it are not executed before the call
  returns, but later on the waiting thread (future.hpp:5686; C80). The overload for ranges has no such problem.
* `when_any(f1, f2, ...)` checks the futures from the last to the first: it executes a deferred function although an earlier future is ready (5754-5768; C81).
* If the thread cannot be started, `when_all` and `when_any` (BOOST_THREAD_VERSION 4) hang: the exception destroys the new shared state, and its destructor
  waits until the state is ready (938-947; C82).
* The destructor of the last future of `async(launch::async, f)` does not wait for `f`, although doc/future_ref.qbk (961, 1452) says so: the thread owns the
  shared state too, so the waiting destructor of the state can only run after `f` has ended (C84).
* If its thread cannot be started, `async` (BOOST_THREAD_VERSION 4) hangs instead of throwing, for the same reason as `when_all` (C85).
* Without variadic templates (BOOST_THREAD_VERSION 2, 3) `async(launch::deferred, f)` calls `std::terminate` (3905-3910, 3966-3980; C86).

Windows
* get_tick_count64 (C147): load, GetTickCount and store are not atomic together; if two first calls of a program straddle a wrap-around of the 32-bit counter, the value of the later one is stored without the carry and the clock goes back by 2^32 ms.  The calls after the first store are exact, whatever the interleaving.
* An `unlock` that has found a waiter accesses the mutex (to set the event flag) after it has given it away; meanwhile another thread may have locked, unlocked and destroyed it (C75).
* `condition_variable`: a thread that was notified by `notify_one`, and even by a following `notify_all`, sleeps on if threads that begin to wait later take the
  tokens of the shared `wake_sem` first: a thread's generation and its token are taken separately (C77, C78).
* `shared_mutex`: a `try_lock_for` that times out releases one token, whatever the number of readers that waited behind it; the others stay blocked while the present readers hold the mutex (C106).
* `shared_mutex`: readers and threads in `lock_upgrade` share one semaphore; a thread that waits for an upgrade lock can take the wake-up of a reader, which then stays blocked as long as the upgrade lock is held (C106).
* `shared_mutex`: a time-out that finds the mutex locked again after an unlock had already released this thread leaves its tokens in the semaphores. Each of them later makes a waiting writer register twice;
  after 127 such events `lock()` throws `lock_error` with a single waiting thread (C107).
* win32/once.hpp: rollback_once_region (217-225) frees the flag before it signals the event, so the signal may come after the next thread has reset the event and begun to execute the function: all waiting threads then busy-wait until the function ends (C110). Results are not affected.
* src/win32/thread.cpp 442-466: `join` looks the thread up twice (`get_thread_info`, `native_handle`); if another thread's join or detach empties the object in between,
  the handle is `invalid_handle_value`, which is left out of the wait, so the call waits until it is interrupted (C116).
* src/win32/thread.cpp 671-723, 762-813: if no waitable timer can be created, 2^32-1 ms are the same as INFINITE, and longer times wrap round (C115).
* On Windows a writer that waits in `lock()` on a `shared_mutex` can lose its wake-up to a thread in `lock_upgrade()`, or to a reader behind a `try_lock_for()` that gives up; it then goes on waiting while new readers get in (`waiting_writer_keeps_readers_out_upgrade_refuted`, `waiting_writer_keeps_readers_out_timed_refuted`).
* win32/shared_mutex.hpp 389-399: `try_lock()` returns false on what a plain read of the state says, so it may fail on a mutex that nobody holds or uses, if the caller has not synchronised with the thread that unlocked it (`C158_try_lock_refuted`; allowed by the C++ standard).
* src/win32/thread.cpp 50-65: what `notify_all_at_thread_exit` and asynchronous states registered is done by the destructor of the control block. A copy of the thread's id (`C159_gone_with_object_refuted`) delays it, with the function object, beyond the end and the join of the thread, for as long as the id exists; and it may be done by another thread, such as the one that joins (`C159_freed_by_itself_refuted`), which then unlocks a mutex that it has not locked.

## What is modelled

| Files in /repo | Model |
|---|---|
| concurrent_queues/sync_bounded_queue.hpp | BQ_Model.v |
| concurrent_queues/sync_queue.hpp, sync_deque.hpp (pull from the front), sync_priority_queue.hpp, detail/sync_queue_base.hpp, csbl/devector.hpp | SQ_Model.v |
| concurrent_queues/sync_timed_queue.hpp | TQ_Model.v |
| latch.hpp; barrier.hpp; completion_latch.hpp, detail/counter.hpp | LT_, BR_, CL_Model.v |
| src/pthread/once.cpp, once_atomic.cpp, pthread/once.hpp, once_atomic.hpp | ON_Model.v |
| pthread/shared_mutex.hpp; v2/shared_mutex.hpp | SM_, V2_Model.v |
| pthread/mutex.hpp (timed_mutex), pthread/recursive_mutex.hpp | MX_Model.v |
| lock_types.hpp, lock_guard.hpp, shared_lock_guard.hpp, strict_lock.hpp, reverse_lock.hpp | LK_Model.v |
| lock_algorithms.hpp; synchronized_value.hpp | LA_, SV_Model.v |
| detail/platform_time.hpp, parts of condition_variable_fwd.hpp | TM_Model.v |
| detail/string_to_unsigned.hpp, string_trim.hpp, thread::physical_concurrency | SU_Model.v |
| src/pthread/thread.cpp: interruption; pthread/condition_variable.hpp | IT_Model.v |
| src/pthread/thread.cpp: join, detach, end of a thread | JN_Model.v |
| src/pthread/thread.cpp: thread-specific data, exit functions; tss.hpp | TS_Model.v |
| detail/thread_group.hpp | TG_Model.v |
| future.hpp: shared state, promise, packaged_task, deferred, future, shared_future | FU_Model.v |
| future.hpp: wait_for_any; make_*future; continuations; waiting for deferred continuations | WA_, MK_, FC_, FD_Model.v |
| executors/basic_thread_pool.hpp, loop_executor.hpp | EX_Model.v |
| executors/detail/priority_executor_base.hpp, scheduled_executor_base.hpp | SC_Model.v |
| executors/serial_executor.hpp, serial_executor_cont.hpp | SX_, SY_Model.v |
| `win32/basic_timed_mutex.hpp`, `win32/mutex.hpp`, `win32/basic_recursive_mutex.hpp` | WM_Model.v |
| `win32/condition_variable.hpp` (basic_condition_variable) | WC_Model.v |
| `future.hpp` 5510-5895 (when_all, when_any), `futures/wait_for_all.hpp` | WN_Model.v |
| future.hpp 906-1012, 3844-3988, 4001-4140 (async with launch::async; policies) | AS_Model.v |
| pthread/condition_variable_fwd.hpp and condition_variable.hpp (wait_until, wait_for, timed_wait), mutex.hpp and recursive_mutex.hpp (timed_lock, try_lock_until/for), detail/thread.hpp (try_join_until/for, timed_join), thread_data.hpp and src/pthread/thread.cpp (sleep functions) | TW_Model.v |
| experimental/parallel/v2/task_region.hpp, experimental/parallel/v1/exception_list.hpp | TR_Model.v |
| executors/thread_executor.hpp, executors/inline_executor.hpp | TX_Model.v |
| detail/thread.hpp (ownership: constructors, ~thread, move, swap, join, detach), scoped_thread.hpp, thread_guard.hpp, thread_functors.hpp | TH_Model.v |
| win32/shared_mutex.hpp | WS_Model.v |
| win32/once.hpp | WO_Model.v |
| src/win32/thread.cpp (interruption, sleep, join, detach, end of a thread), win32/thread_data.hpp, detail/thread.hpp (timed joins) | WI_Model.v |
| future.hpp: unwrap() and its shared state | UW_Model.v |
| executors/scheduler.hpp, scheduled_thread_pool.hpp, scheduling_adaptor.hpp, detail/priority_executor_base.hpp (loop) | SR_Model.v |
| future.hpp: async and then with executors, set_executor; executors/generic_executor_ref.hpp (executor_ref) | EC_Model.v |
| user_scheduler.hpp | US_Model.v |
| testable_mutex.hpp | TK_Model.v |
| externally_locked.hpp, externally_locked_stream.hpp, strict_lock.hpp (owns_lock) | EL_Model.v |
| src/pthread/thread.cpp: the end of a thread not started by the library; notify_all_at_thread_exit, make_ready_at_thread_exit | TE_Model.v |
| pthread/condition_variable.hpp: condition_variable_any, lock_on_exit | CA_Model.v |
| detail/thread.hpp: thread::id, get_id, the test for joining oneself | TI_Model.v |
| xtime.hpp; pthread/thread_data.hpp: thread_attributes::set_stack_size | XT_Model.v |
| concurrent_queues/*.hpp: push and pull with operations on elements that throw | QX_Model.v |
| src/win32/thread_primitives.cpp: get_tick_count64 | GT_Model.v |
| how arguments are taken (overloads, forwarding): future.hpp, executors, user_scheduler.hpp, scheduler.hpp, thread.hpp, nullary_function.hpp, decay_copy, call_once, queues, task_region | VC_Model.v |
| future.hpp do_continuation, mark_finished_internal and the producers' try blocks; ~thread_data_base's notify_deferred | OV_Model.v |
| constructors and destructors of basic_thread_pool, scheduled_thread_pool, serial_executor, scheduler, scheduling_adaptor; thread_group::create_thread, thread_executor::submit, ~thread under failure | RC_Model.v |
| the three call_once implementations under release/acquire: src/pthread/once_atomic.cpp, pthread/once.hpp, src/pthread/once.cpp, win32/once.hpp | OM_Model.v |
| win32/basic_timed_mutex.hpp under release/acquire memory | WV_Model.v |
| win32/basic_recursive_mutex.hpp under release/acquire memory | RV_Model.v |
| win32/shared_mutex.hpp under release/acquire memory | XV_Model.v |
| win32/thread_data.hpp: thread_data_base and its reference count; src/win32/thread.cpp: creation, end and release of control blocks | WR_Model.v |
| win32/condition_variable.hpp: total_count under release/acquire memory | WT_Model.v |
| detail/thread_group.hpp: interrupt_all beside join_all, create_thread and remove_thread | GI_Model.v |

Not modelled: the Windows implementation (win32/, src/win32/) except where listed; thread attributes other than the stack size; native handles; allocators and move emulation; `is_lock_owner` traits, lockable traits and adapters
(no behaviour of their own); parts of future.hpp not listed above; allocation failure everywhere.

## Print Assumptions

`Print Assumptions` stands beneath every property theorem.  What it prints:

| Theorem | File | Assumptions |
|---|---|---|
| C01_fifo | BQ_Props.v | Closed under the global context |
| C01_linearizable | BQ_Props.v | Closed under the global context |
| C02_capacity | BQ_Props.v | Closed under the global context |
| C02_try_push_back_exact | BQ_Props.v | Closed under the global context |
| C02_try_pull_front_exact | BQ_Props.v | Closed under the global context |
| C02_observers_exact | BQ_Props.v | Closed under the global context |
| C03_size_refuted | BQ_Props.v | Closed under the global context |
| C03_size_partial | BQ_Props.v | Closed under the global context |
| C04_no_lost_wakeup | BQ_Props.v | Closed under the global context |
| C04_comes_to_rest | BQ_Props.v | Closed under the global context |
| C05_close_rejects_pushes | BQ_Props.v | Closed under the global context |
| C05_close_releases_all | BQ_Props.v | Closed under the global context |
| C05_close_still_delivers | BQ_Props.v | Closed under the global context |
| C06_wait_push_back_refuted | BQ_Props.v | Closed under the global context |
| C06_wait_push_back_partial | BQ_Props.v | Closed under the global context |
| C07_interrupt_refuted | BQ_Props.v | Closed under the global context |
| C07_interrupt_partial | BQ_Props.v | Closed under the global context |
| C08_fifo | SQ_Props.v | Closed under the global context |
| C08_linearizable | SQ_Props.v | Closed under the global context |
| C09_no_lost_wakeup | SQ_Props.v | Closed under the global context |
| C09_comes_to_rest | SQ_Props.v | Closed under the global context |
| C10_underlying_refuted | SQ_Props.v | Closed under the global context |
| C10_underlying_partial | SQ_Props.v | Closed under the global context |
| C10_underlying_wrong | SQ_Props.v | Closed under the global context |
| C10_priority_queue | SQ_Props.v | Closed under the global context |
| C11_devector_is_sequence | SQ_Props.v | Closed under the global context |
| C12_greatest_first | SQ_Props.v | Closed under the global context |
| C12_no_lost_wakeup | SQ_Props.v | Closed under the global context |
| C65_clock_set_back_refuted | TQ_Props.v | Closed under the global context |
| C65_clock_set_back_partial | TQ_Props.v | Closed under the global context |
| C15_not_before_zero | LT_Props.v | Closed under the global context |
| C15_closed_only_before_zero | LT_Props.v | Closed under the global context |
| C15_all_released | LT_Props.v | Closed under the global context |
| C15_comes_to_rest | LT_Props.v | Closed under the global context |
| C15_reset_not_early | LT_Props.v | Closed under the global context |
| C15_reset_releases | LT_Props.v | Closed under the global context |
| C16_constructor | BR_Props.v | Closed under the global context |
| C16_groups | BR_Props.v | Closed under the global context |
| C16_no_early_return | BR_Props.v | Closed under the global context |
| C16_released_by_own_group | BR_Props.v | Closed under the global context |
| C16_comes_to_rest | BR_Props.v | Closed under the global context |
| C16_defined | BR_Props.v | Closed under the global context |
| C16_wraparound_refuted | BR_Props.v | Closed under the global context |
| C17_interrupt_refuted | BR_Props.v | Closed under the global context |
| C17_interrupt_partial | BR_Props.v | Closed under the global context |
| C66_throwing_completion_refuted | BR_Props.v | Closed under the global context |
| C66_throwing_completion_partial | BR_Props.v | Closed under the global context |
| C19_exactly_once | ON_Props.v | Closed under the global context |
| C19_no_overlap | ON_Props.v | Closed under the global context |
| C19_returns_after_completion | ON_Props.v | Closed under the global context |
| C20_none_left_behind | ON_Props.v | Closed under the global context |
| C20_quiescent_free | ON_Props.v | Closed under the global context |
| C20_retry | ON_Props.v | Closed under the global context |
| C20_comes_to_rest | ON_Props.v | Closed under the global context |
| C21_exactly_once | ON_Props.v | Closed under the global context |
| C21_returns_after_completion | ON_Props.v | Closed under the global context |
| C21_none_left_behind | ON_Props.v | Closed under the global context |
| C21_retry | ON_Props.v | Closed under the global context |
| C21_range_refuted | ON_Props.v | Closed under the global context |
| C22_exclusive | SM_Props.v | Closed under the global context |
| C22_one_upgrader | SM_Props.v | Closed under the global context |
| C22_no_assertion_fails | SM_Props.v | Closed under the global context |
| C23_no_lost_wakeup | SM_Props.v | Closed under the global context |
| C23_free_nobody_blocked | SM_Props.v | Closed under the global context |
| C23_comes_to_rest | SM_Props.v | Closed under the global context |
| C24_upgrade_is_atomic | SM_Props.v | Closed under the global context |
| C25_exclusion_refuted | SM_Props.v | Closed under the global context |
| C25_hang_refuted | SM_Props.v | Closed under the global context |
| C25_exclusion_partial | SM_Props.v | Closed under the global context |
| C26_timed_upgrade_refuted | SM_Props.v | Closed under the global context |
| C26_timed_shared_to_upgrade_refuted | SM_Props.v | Closed under the global context |
| C26_fails_only_with_other_owner_partial | SM_Props.v | Closed under the global context |
| C27_writer_preference_refuted | SM_Props.v | Closed under the global context |
| C27_writer_preference_partial | SM_Props.v | Closed under the global context |
| C28_exclusive | V2_Props.v | Closed under the global context |
| C28_one_upgrader | V2_Props.v | Closed under the global context |
| C28_upgrade_keeps_others_out | V2_Props.v | Closed under the global context |
| C28_count_fits | V2_Props.v | Closed under the global context |
| C28_no_assertion_fails | V2_Props.v | Closed under the global context |
| C29_timed_lock_refuted | V2_Props.v | Closed under the global context |
| C29_count_refuted | V2_Props.v | Closed under the global context |
| C29_interrupted_lock_refuted | V2_Props.v | Closed under the global context |
| C29_released_is_as_new_partial | V2_Props.v | Closed under the global context |
| C29_new_reader_admitted_partial | V2_Props.v | Closed under the global context |
| C30_exclusive | MX_Props.v | Closed under the global context |
| C30_no_lost_wakeup | MX_Props.v | Closed under the global context |
| C30_comes_to_rest | MX_Props.v | Closed under the global context |
| C30_try_lock_exact | MX_Props.v | Closed under the global context |
| C31_exclusive | MX_Props.v | Closed under the global context |
| C31_owner_never_waits | MX_Props.v | Closed under the global context |
| C31_free_exactly_when_balanced | MX_Props.v | Closed under the global context |
| C31_try_lock_exact | MX_Props.v | Closed under the global context |
| C31_no_lost_wakeup | MX_Props.v | Closed under the global context |
| C31_comes_to_rest | MX_Props.v | Closed under the global context |
| C31_depth_refuted | MX_Props.v | Closed under the global context |
| C32_timed_mutex_refuted | MX_Props.v | Closed under the global context |
| C32_recursive_timed_mutex_refuted | MX_Props.v | Closed under the global context |
| C32_timed_mutex_partial | MX_Props.v | Closed under the global context |
| C32_recursive_timed_mutex_partial | MX_Props.v | Closed under the global context |
| C32_other_durations_acquire_partial | MX_Props.v | Closed under the global context |
| locks_balanced | LK_Props.v | Closed under the global context |
| locks_never_unlock_unheld | LK_Props.v | Closed under the global context |
| locks_released_at_end | LK_Props.v | Closed under the global context |
| locks_destroyable | LK_Props.v | Closed under the global context |
| lock_misuse | LK_Props.v | Closed under the global context |
| lock_strong_guarantee | LK_Props.v | Closed under the global context |
| reverse_lock_restores_partial | LK_Props.v | Closed under the global context |
| reverse_lock_restores_refuted | LK_Props.v | Closed under the global context |
| reverse_lock_shared_refuted | LK_Props.v | Closed under the global context |
| nested_strict_lock_restores | LK_Props.v | Closed under the global context |
| lock_runs | LA_Props.v | Closed under the global context |
| lock_acquires_all | LA_Props.v | Closed under the global context |
| lock_throws_holding_none | LA_Props.v | Closed under the global context |
| try_lock_index | LA_Props.v | Closed under the global context |
| try_lock_range_index | LA_Props.v | Closed under the global context |
| try_lock_never_blocks | LA_Props.v | Closed under the global context |
| synchronized_value_atomic | SV_Props.v | Closed under the global context |
| synchronized_value_exclusive | SV_Props.v | Closed under the global context |
| synchronized_value_no_cycle_partial | SV_Props.v | Closed under the global context |
| synchronized_value_deadlock_free_partial | SV_Props.v | Closed under the global context |
| synchronized_value_compare_self_refuted | SV_Props.v | Closed under the global context |
| synchronized_value_finishes_partial | SV_Props.v | Closed under the global context |
| string_to_unsigned_exact_partial | SU_Props.v | Closed under the global context |
| string_to_unsigned_exact_refuted | SU_Props.v | Closed under the global context |
| physical_concurrency_counts | SU_Props.v | Closed under the global context |
| physical_concurrency_falls_back | SU_Props.v | Closed under the global context |
| interruption_exactly_once | IT_Props.v | Closed under the global context |
| interrupt_wakes_sleeper | IT_Props.v | Closed under the global context |
| no_interrupted_sleeper | IT_Props.v | Closed under the global context |
| interruption_never_deadlocks | IT_Props.v | Closed under the global context |
| runnable_threads_step | IT_Props.v | Closed under the global context |
| wait_ends_with_mutex | IT_Props.v | Closed under the global context |
| notify_all_wakes | IT_Props.v | Closed under the global context |
| notify_one_wakes | IT_Props.v | Closed under the global context |
| notification_passed_on_refuted | IT_Props.v | Closed under the global context |
| interruption_scopes_partial | IT_Props.v | Closed under the global context |
| interruption_scopes_refuted | IT_Props.v | Closed under the global context |
| exit_actions_partial | JN_Props.v | Closed under the global context |
| exit_actions_at_exit_refuted | JN_Props.v | Closed under the global context |
| tss_cleanup_running_partial | TS_Props.v | Closed under the global context |
| tss_cleanup_once_partial | TS_Props.v | Closed under the global context |
| tss_cleanup_once_refuted | TS_Props.v | Closed under the global context |
| tss_no_undefined_behaviour_refuted | TS_Props.v | Closed under the global context |
| exit_functions_running | TS_Props.v | Closed under the global context |
| exit_functions_once | TS_Props.v | Closed under the global context |
| exit_functions_not_early | TS_Props.v | Closed under the global context |
| join_after_end | JN_Props.v | Closed under the global context |
| future_outcome | FU_Props.v | Closed under the global context |
| future_outcome_stable | FU_Props.v | Closed under the global context |
| waiters_released | FU_Props.v | Closed under the global context |
| futures_settle | FU_Props.v | Closed under the global context |
| broken_promise_partial | FU_Props.v | Closed under the global context |
| broken_promise_assign_refuted | FU_Props.v | Closed under the global context |
| get_once_partial | FU_Props.v | Closed under the global context |
| get_once_refuted | FU_Props.v | Closed under the global context |
| get_or_partial | FU_Props.v | Closed under the global context |
| get_or_shared_refuted | FU_Props.v | Closed under the global context |
| task_once_partial | FU_Props.v | Closed under the global context |
| task_run_once | FU_Props.v | Closed under the global context |
| task_reset_refuted | FU_Props.v | Closed under the global context |
| deferred_once | FU_Props.v | Closed under the global context |
| deferred_first_waiter | FU_Props.v | Closed under the global context |
| pool_runs_once | EX_Props.v | Closed under the global context |
| pool_join | EX_Props.v | Closed under the global context |
| pool_none_forgotten | EX_Props.v | Closed under the global context |
| pool_destroy_partial | EX_Props.v | Closed under the global context |
| pool_destroy_refuted | EX_Props.v | Closed under the global context |
| loop_executor_partial | EX_Props.v | Closed under the global context |
| loop_executor_refuted | EX_Props.v | Closed under the global context |
| scheduled_not_early | SC_Props.v | Closed under the global context |
| scheduled_in_order | SC_Props.v | Closed under the global context |
| scheduled_due_starts | SC_Props.v | Closed under the global context |
| scheduled_no_lost_wakeup | SC_Props.v | Closed under the global context |
| scheduled_loop_goes_on | SC_Props.v | Closed under the global context |
| wait_for_any_partial | WA_Props.v | Closed under the global context |
| wait_for_any_ordered_partial | WA_Props.v | Closed under the global context |
| wait_for_any_refuted | WA_Props.v | Closed under the global context |
| made_ready_partial | MK_Props.v | Closed under the global context |
| made_ready_refuted | MK_Props.v | Closed under the global context |
| continuation_once | FC_Props.v | Closed under the global context |
| continuation_all_partial | FC_Props.v | Closed under the global context |
| continuation_all_refuted | FC_Props.v | Closed under the global context |
| launch_once | OV_Props.v | Closed under the global context |
| launch_all_partial | OV_Props.v | Closed under the global context |
| launch_all_refuted | OV_Props.v | Closed under the global context |
| continuation_wait_partial | FD_Props.v | Closed under the global context |
| continuation_wait_deferred_refuted | FD_Props.v | Closed under the global context |
| continuation_wait_interrupted_refuted | FD_Props.v | Closed under the global context |
| thread_group_partial | TG_Props.v | Closed under the global context |
| thread_group_once_partial | TG_Props.v | Closed under the global context |
| thread_group_no_hang_partial | TG_Props.v | Closed under the global context |
| thread_group_refuted | TG_Props.v | Closed under the global context |
| serial_once | SX_Props.v | Closed under the global context |
| serial_order_partial | SX_Props.v | Closed under the global context |
| serial_order_refuted | SX_Props.v | Closed under the global context |
| serial_cont_order | SY_Props.v | Closed under the global context |
| serial_cont_destroy_refuted | SY_Props.v | Closed under the global context |
| C73_exclusive | WM_Props.v | Closed under the global context |
| C73_try_lock_exact | WM_Props.v | Closed under the global context |
| C74_no_lost_wakeup | WM_Props.v | Closed under the global context |
| C74_waiters_exact | WM_Props.v | Closed under the global context |
| C75_destroy_refuted | WM_Props.v | Closed under the global context |
| C75_destroy_partial | WM_Props.v | Closed under the global context |
| C76_exclusive | WM_Props.v | Closed under the global context |
| C76_owner_never_waits | WM_Props.v | Closed under the global context |
| C76_owner_never_asleep | WM_Props.v | Closed under the global context |
| C76_no_lost_wakeup | WM_Props.v | Closed under the global context |
| C76_free_exactly_when_balanced | WM_Props.v | Closed under the global context |
| C77_notify_one_wakes_a_waiter_refuted | WC_Props.v | Closed under the global context |
| C77_notify_one_partial | WC_Props.v | Closed under the global context |
| C77_no_spurious_wakeup | WC_Props.v | Closed under the global context |
| C78_notify_all_wakes_all_refuted | WC_Props.v | Closed under the global context |
| C78_notify_all_partial | WC_Props.v | Closed under the global context |
| C79_when_all_value | WN_Props.v | Closed under the global context |
| C79_when_all_completes | WN_Props.v | Closed under the global context |
| C79_steps_bounded | WN_Props.v | Closed under the global context |
| C80_when_all_runs_deferred_refuted | WN_Props.v | Closed under the global context |
| C80_when_all_runs_deferred_partial | WN_Props.v | Closed under the global context |
| C80_when_all_tuple_partial | WN_Props.v | Closed under the global context |
| C80_executed_once | WN_Props.v | Closed under the global context |
| C80_complete_on_return | WN_Props.v | Closed under the global context |
| C80_call_does_not_wait | WN_Props.v | Closed under the global context |
| C81_when_any_value | WN_Props.v | Closed under the global context |
| C81_when_any_completes | WN_Props.v | Closed under the global context |
| C81_when_any_at_once | WN_Props.v | Closed under the global context |
| C81_when_any_executes_one | WN_Props.v | Closed under the global context |
| C81_when_any_in_order_refuted | WN_Props.v | Closed under the global context |
| C81_when_any_in_order_partial | WN_Props.v | Closed under the global context |
| C81_when_any_tuple_order | WN_Props.v | Closed under the global context |
| C82_thread_failure_throws_refuted | WN_Props.v | Closed under the global context |
| C82_thread_failure_throws_partial | WN_Props.v | Closed under the global context |
| C13_not_early_and_in_order | TQ_Props.v | Closed under the global context |
| C13_exact | TQ_Props.v | Closed under the global context |
| C13_conserved | TQ_Props.v | Closed under the global context |
| C13_steady_defined | TQ_Props.v | Closed under the global context |
| C13_pull_for_not_early | TQ_Props.v | Closed under the global context |
| C14_due_is_delivered | TQ_Props.v | Closed under the global context |
| C14_no_lost_wakeup | TQ_Props.v | Closed under the global context |
| C14_comes_to_rest | TQ_Props.v | Closed under the global context |
| C14_timed_pull_bounded | TQ_Props.v | Closed under the global context |
| C18_wait_after_completion_refuted | CL_Props.v | Closed under the global context |
| C18_try_wait_refuted | CL_Props.v | Closed under the global context |
| C18_wait_for_refuted | CL_Props.v | Closed under the global context |
| C18_count_down_refuted | CL_Props.v | Closed under the global context |
| C18_not_before_zero_partial | CL_Props.v | Closed under the global context |
| C18_released_partial | CL_Props.v | Closed under the global context |
| C18_completes_once_partial | CL_Props.v | Closed under the global context |
| C18_comes_to_rest | CL_Props.v | Closed under the global context |
| C18_results_exact | CL_Props.v | Closed under the global context |
| C18_completion_function | CL_Props.v | Closed under the global context |
| C83_once_and_result | AS_Props.v | Closed under the global context |
| C83_completes | AS_Props.v | Closed under the global context |
| C83_lifetime | AS_Props.v | Closed under the global context |
| C84_destructor_blocks_refuted | AS_Props.v | Closed under the global context |
| C84_state_outlives_function_partial | AS_Props.v | Closed under the global context |
| C85_failure_throws_refuted | AS_Props.v | Closed under the global context |
| C85_failure_hangs | AS_Props.v | Closed under the global context |
| C85_failure_throws_partial | AS_Props.v | Closed under the global context |
| C86_policy_honoured_refuted | AS_Props.v | Closed under the global context |
| C86_policy_honoured_partial | AS_Props.v | Closed under the global context |
| join_detach_once | JN_Props.v | Closed under the global context |
| join_returns | JN_Props.v | Closed under the global context |
| join_settles | JN_Props.v | Closed under the global context |
| join_timeout_rechecks | JN_Props.v | Closed under the global context |
| C67_no_lost_wakeup | V2_Props.v | Closed under the global context |
| C67_reader_waits_for_writer | V2_Props.v | Closed under the global context |
| C67_comes_to_rest | V2_Props.v | Closed under the global context |
| C67_more_threads_than_limit_refuted | V2_Props.v | Closed under the global context |
| C67_leaving_full_wakes_partial | V2_Props.v | Closed under the global context |
| C87_wait_until_pred_partial | TW_Props.v | Closed under the global context |
| C87_wait_until_pred_steady_partial | TW_Props.v | Closed under the global context |
| C87_wait_for_pred_partial | TW_Props.v | Closed under the global context |
| C87_unstable_pred_refuted | TW_Props.v | Closed under the global context |
| C87_wait_until | TW_Props.v | Closed under the global context |
| C87_wait_for | TW_Props.v | Closed under the global context |
| C87_try_until | TW_Props.v | Closed under the global context |
| C87_try_for | TW_Props.v | Closed under the global context |
| C88_polled | TW_Props.v | Closed under the global context |
| C88_no_predicate_refuted | TW_Props.v | Closed under the global context |
| C89_sleep_until | TW_Props.v | Closed under the global context |
| C89_sleep_for | TW_Props.v | Closed under the global context |
| C89_nip_sleep_for_refuted | TW_Props.v | Closed under the global context |
| C89_nip_sleep_for_partial | TW_Props.v | Closed under the global context |
| C89_nip_sleep_until_steady_refuted | TW_Props.v | Closed under the global context |
| C89_nip_sleep_until_steady_partial | TW_Props.v | Closed under the global context |
| C90_timed_wait_rel_partial | TW_Props.v | Closed under the global context |
| C90_special_durations_refuted | TW_Props.v | Closed under the global context |
| C90_timed_wait_rel_pred | TW_Props.v | Closed under the global context |
| C91_try_lock_past_refuted | TW_Props.v | Closed under the global context |
| C91_try_lock_until_epoch_refuted | TW_Props.v | Closed under the global context |
| C91_wait_past_throws_refuted | TW_Props.v | Closed under the global context |
| C91_huge_undefined_refuted | TW_Props.v | Closed under the global context |
| C91_polled_defined_partial | TW_Props.v | Closed under the global context |
| C91_wait_until_pred_no_error_partial | TW_Props.v | Closed under the global context |
| C92_join | TR_Props.v | Closed under the global context |
| C93_exceptions_partial | TR_Props.v | Closed under the global context |
| C93_no_exception_lost | TR_Props.v | Closed under the global context |
| C93_reported_once_refuted | TR_Props.v | Closed under the global context |
| C94_cancellation | TR_Props.v | Closed under the global context |
| C95_bounded | TR_Props.v | Closed under the global context |
| C95_returns | TR_Props.v | Closed under the global context |
| C95_pool_returns_partial | TR_Props.v | Closed under the global context |
| C95_nested_pool_refuted | TR_Props.v | Closed under the global context |
| lock_blocks_holding_none | LA_Props.v | Closed under the global context |
| lock_waits_for_the_busy_one | LA_Props.v | Closed under the global context |
| lock_no_wait_cycle | LA_Props.v | Closed under the global context |
| lock_deadlock_free | LA_Props.v | Closed under the global context |
| deferred_setters_partial | FU_Props.v | Closed under the global context |
| deferred_setters_refuted | FU_Props.v | Closed under the global context |
| deferred_setters_survive_destructor | FU_Props.v | Closed under the global context |
| timespec_roundtrip | TM_Props.v | Closed under the global context |
| timespec_normalised_partial | TM_Props.v | Closed under the global context |
| timespec_normalised_refuted | TM_Props.v | Closed under the global context |
| milliseconds_exact | TM_Props.v | Closed under the global context |
| milliseconds_never_short_partial | TM_Props.v | Closed under the global context |
| milliseconds_overflow_refuted | TM_Props.v | Closed under the global context |
| time_order | TM_Props.v | Closed under the global context |
| time_arithmetic | TM_Props.v | Closed under the global context |
| time_duration_exact | TM_Props.v | Closed under the global context |
| getMax_compare_refuted | TM_Props.v | Closed under the global context |
| wait_until_times_out_partial | TM_Props.v | Closed under the global context |
| wait_until_steady_times_out_partial | TM_Props.v | Closed under the global context |
| wait_until_times_out_refuted | TM_Props.v | Closed under the global context |
| wait_until_pred_ok | TM_Props.v | Closed under the global context |
| sleep_for_ok | TM_Props.v | Closed under the global context |
| thread_executor_destructor_waits | TX_Props.v | Closed under the global context |
| thread_executor_once | TX_Props.v | Closed under the global context |
| thread_executor_closed | TX_Props.v | Closed under the global context |
| thread_executor_no_waiting | TX_Props.v | Closed under the global context |
| thread_executor_terminates | TX_Props.v | Closed under the global context |
| thread_executor_alive_partial | TX_Props.v | Closed under the global context |
| thread_executor_use_after_destruction | TX_Props.v | Closed under the global context |
| thread_executor_no_terminate | TX_Props.v | Closed under the global context |
| thread_executor_alive_refuted | TX_Props.v | Closed under the global context |
| inline_executor_nests | TX_Props.v | Closed under the global context |
| inline_executor_once | TX_Props.v | Closed under the global context |
| inline_executor_closed | TX_Props.v | Closed under the global context |
| inline_executor_never_blocks | TX_Props.v | Closed under the global context |
| inline_executor_terminates | TX_Props.v | Closed under the global context |
| thread_represented_once | TH_Props.v | Closed under the global context |
| thread_released_once | TH_Props.v | Closed under the global context |
| thread_join_after_end | TH_Props.v | Closed under the global context |
| thread_construction | TH_Props.v | Closed under the global context |
| thread_move_construction | TH_Props.v | Closed under the global context |
| thread_swap | TH_Props.v | Closed under the global context |
| thread_move_assignment | TH_Props.v | Closed under the global context |
| scoped_thread_waits | TH_Props.v | Closed under the global context |
| scoped_thread_interruption | TH_Props.v | Closed under the global context |
| scoped_thread_not_interrupted | TH_Props.v | Closed under the global context |
| scoped_threads_structured | TH_Props.v | Closed under the global context |
| scoped_threads_safe | TH_Props.v | Closed under the global context |
| thread_programs_finish | TH_Props.v | Closed under the global context |
| thread_terminate_reasons | TH_Props.v | Closed under the global context |
| thread_no_silent_detach | TH_Props.v | Closed under the global context |
| shared_mutex_win_exclusion | WS_Props.v | Closed under the global context |
| shared_mutex_win_try_lock | WS_Props.v | Closed under the global context |
| shared_mutex_win_no_lost_wakeup | WS_Props.v | Closed under the global context |
| readers_wait_for_writers_partial | WS_Props.v | Closed under the global context |
| readers_wait_for_writers_timed_refuted | WS_Props.v | Closed under the global context |
| readers_wait_for_writers_upgrade_refuted | WS_Props.v | Closed under the global context |
| lock_error_only_when_full_partial | WS_Props.v | Closed under the global context |
| lock_shared_error_only_when_full_partial | WS_Props.v | Closed under the global context |
| lock_error_only_when_full_refuted | WS_Props.v | Closed under the global context |
| call_once_win_exactly_once | WO_Props.v | Closed under the global context |
| call_once_win_no_overlap | WO_Props.v | Closed under the global context |
| call_once_win_none_left_behind | WO_Props.v | Closed under the global context |
| call_once_win_retry | WO_Props.v | Closed under the global context |
| call_once_win_finishes | WO_Props.v | Closed under the global context |
| call_once_win_waits_asleep_partial | WO_Props.v | Closed under the global context |
| call_once_win_waits_asleep_refuted | WO_Props.v | Closed under the global context |
| call_once_win_names | WO_Props.v | Closed under the global context |
| win_interruption_exactly_once | WI_Props.v | Closed under the global context |
| win_interrupt_wakes | WI_Props.v | Closed under the global context |
| win_joins_and_sleeps_right | WI_Props.v | Closed under the global context |
| win_timed_calls_end_partial | WI_Props.v | Closed under the global context |
| win_timed_calls_end_refuted | WI_Props.v | Closed under the global context |
| win_clock_set_forward | WI_Props.v | Closed under the global context |
| win_join_ends_partial | WI_Props.v | Closed under the global context |
| win_join_ends_soon | WI_Props.v | Closed under the global context |
| win_join_ends_refuted | WI_Props.v | Closed under the global context |
| unwrap_outcome | UW_Props.v | Closed under the global context |
| unwrap_never_stuck_inside | UW_Props.v | Closed under the global context |
| unwrap_completes_refuted | UW_Props.v | Closed under the global context |
| unwrap_completes_partial | UW_Props.v | Closed under the global context |
| unwrap_ends | UW_Props.v | Closed under the global context |
| unwrap_invalid_inner_refuted | UW_Props.v | Closed under the global context |
| unwrap_invalid_inner_partial | UW_Props.v | Closed under the global context |
| schedule_terminates_only_by_closure_refuted | SR_Props.v | Closed under the global context |
| schedule_terminates_only_by_closure_partial | SR_Props.v | Closed under the global context |
| schedule_close_runs_all_refuted | SR_Props.v | Closed under the global context |
| schedule_close_runs_all_partial | SR_Props.v | Closed under the global context |
| schedule_destructor_completes_refuted | SR_Props.v | Closed under the global context |
| schedule_destructor_completes_due_refuted | SR_Props.v | Closed under the global context |
| schedule_destructor_completes_partial | SR_Props.v | Closed under the global context |
| schedule_destructor_ends | SR_Props.v | Closed under the global context |
| scheduling_adaptor_uses_executor_refuted | SR_Props.v | Closed under the global context |
| scheduling_adaptor_uses_executor_partial | SR_Props.v | Closed under the global context |
| waiting_writer_keeps_readers_out_partial | ? | Closed under the global context |
| waiting_writer_keeps_readers_out_upgrade_refuted | ? | Closed under the global context |
| waiting_writer_keeps_readers_out_timed_refuted | ? | Closed under the global context |
| inherited_executor_refuted | EC_Props.v | Closed under the global context |
| inherited_executor_partial | EC_Props.v | Closed under the global context |
| inherited_once_partial | EC_Props.v | Closed under the global context |
| inherited_kept_partial | EC_Props.v | Closed under the global context |
| scheduler_order_refuted | US_Props.v | Closed under the global context |
| scheduler_order_partial | US_Props.v | Closed under the global context |
| run_queued_closures_partial | US_Props.v | Closed under the global context |
| loop_end_refuted | US_Props.v | Closed under the global context |
| loop_end_partial | US_Props.v | Closed under the global context |
| destroyed_done_refuted | US_Props.v | Closed under the global context |
| destroyed_done_partial | US_Props.v | Closed under the global context |
| try_result_refuted | US_Props.v | Closed under the global context |
| try_result_partial | US_Props.v | Closed under the global context |
| testable_truth | TK_Props.v | Closed under the global context |
| cloak_default_refuted | EL_Props.v | Closed under the global context |
| cloak_shared_refuted | EL_Props.v | Closed under the global context |
| cloak_partial | EL_Props.v | Closed under the global context |
| stream_contiguous | EL_Props.v | Closed under the global context |
| schedule_once_not_early | SR_Props.v | Closed under the global context |
| schedule_started_when_due | SR_Props.v | Closed under the global context |
| schedule_as_asked | SR_Props.v | Closed under the global context |
| schedule_rejects_only_closed | SR_Props.v | Closed under the global context |
| external_cleanup_partial | TE_Props.v | Closed under the global context |
| external_cleanup_once_partial | TE_Props.v | Closed under the global context |
| external_exit_functions | TE_Props.v | Closed under the global context |
| external_cleanup_once_refuted | TE_Props.v | Closed under the global context |
| external_get_refuted | TE_Props.v | Closed under the global context |
| exit_requests_partial | TE_Props.v | Closed under the global context |
| exit_requests_refuted | TE_Props.v | Closed under the global context |
| exit_requests_external_partial | TE_Props.v | Closed under the global context |
| wait_any_gives_back_the_lock_partial | CA_Props.v | Closed under the global context |
| wait_any_mutexes_partial | CA_Props.v | Closed under the global context |
| wait_any_exception_refuted | CA_Props.v | Closed under the global context |
| notify_all_any | CA_Props.v | Closed under the global context |
| notify_one_any | CA_Props.v | Closed under the global context |
| notify_one_any_once | CA_Props.v | Closed under the global context |
| condition_any_progress | CA_Props.v | Closed under the global context |
| condition_any_destruction_refuted | CA_Props.v | Closed under the global context |
| condition_any_destruction_partial | CA_Props.v | Closed under the global context |
| thread_id_pointer | TI_Props.v | Closed under the global context |
| thread_id_partial | TI_Props.v | Closed under the global context |
| thread_id_same | TI_Props.v | Closed under the global context |
| thread_id_none_least | TI_Props.v | Closed under the global context |
| thread_id_refuted | TI_Props.v | Closed under the global context |
| self_join_waits_for_others | TI_Props.v | Closed under the global context |
| self_join_pointer | TI_Props.v | Closed under the global context |
| self_join_partial | TI_Props.v | Closed under the global context |
| self_join_refuted | TI_Props.v | Closed under the global context |
| xtime_conversion_partial | XT_Props.v | Closed under the global context |
| xtime_to_system_time_partial | XT_Props.v | Closed under the global context |
| get_xtime_exact | XT_Props.v | Closed under the global context |
| xtime_conversion_refuted | XT_Props.v | Closed under the global context |
| xtime_not_early_refuted | XT_Props.v | Closed under the global context |
| xtime_long_refuted | XT_Props.v | Closed under the global context |
| xtime_cmp_order | XT_Props.v | Closed under the global context |
| xtime_cmp_get_xtime | XT_Props.v | Closed under the global context |
| stack_size_partial | XT_Props.v | Closed under the global context |
| stack_size_refuted | XT_Props.v | Closed under the global context |
| sync_queue_throw_partial | QX_Props.v | Closed under the global context |
| bounded_queue_throw_partial | QX_Props.v | Closed under the global context |
| priority_queue_throw_partial | QX_Props.v | Closed under the global context |
| priority_queue_push_throw_refuted | QX_Props.v | Closed under the global context |
| priority_queue_pull_throw_refuted | QX_Props.v | Closed under the global context |
| queue_pull_value_refuted | QX_Props.v | Closed under the global context |
| queue_pull_move_refuted | QX_Props.v | Closed under the global context |
| sync_queue_throw_wakes_partial | QX_Props.v | Closed under the global context |
| priority_queue_throw_wakes_partial | QX_Props.v | Closed under the global context |
| bounded_queue_throw_wakes_partial | QX_Props.v | Closed under the global context |
| priority_queue_throw_wakes_refuted | QX_Props.v | Closed under the global context |
| bounded_queue_throw_wakes_refuted | QX_Props.v | Closed under the global context |
| bounded_queue_push_throw_wakes_refuted | QX_Props.v | Closed under the global context |
| tick_count_exact_partial | GT_Props.v | Closed under the global context |
| tick_count_prompt_partial | GT_Props.v | Closed under the global context |
| tick_count_never_back_refuted | GT_Props.v | Closed under the global context |
| tick_count_exact_refuted | GT_Props.v | Closed under the global context |
| arguments_accepted_partial | VC_Props.v | Closed under the global context |
| arguments_accepted_refuted | VC_Props.v | Closed under the global context |
| lvalue_arguments_copied_partial | VC_Props.v | Closed under the global context |
| lvalue_argument_copied_iff_partial | VC_Props.v | Closed under the global context |
| lvalue_arguments_copied_refuted | VC_Props.v | Closed under the global context |
| lvalue_twice_refuted | VC_Props.v | Closed under the global context |
| rvalue_arguments_taken | VC_Props.v | Closed under the global context |
| arguments_delivered | VC_Props.v | Closed under the global context |
| once_args_delivered | VC_Props.v | Closed under the global context |
| once_args_copied_partial | VC_Props.v | Closed under the global context |
| once_args_copied_refuted | VC_Props.v | Closed under the global context |
| outcome_stable | OV_Props.v | Closed under the global context |
| outcome_stable_partial | OV_Props.v | Closed under the global context |
| outcome_change_partial | OV_Props.v | Closed under the global context |
| outcome_ready | OV_Props.v | Closed under the global context |
| outcome_stable_refuted | OV_Props.v | Closed under the global context |
| no_escape_partial | OV_Props.v | Closed under the global context |
| no_escape_refuted | OV_Props.v | Closed under the global context |
| no_escape_at_exit_refuted | OV_Props.v | Closed under the global context |
| executor_constructor | RC_Props.v | Closed under the global context |
| executor_constructor_partial | RC_Props.v | Closed under the global context |
| executor_constructor_terminates | RC_Props.v | Closed under the global context |
| executor_constructor_refuted | RC_Props.v | Closed under the global context |
| submit_all_or_nothing | RC_Props.v | Closed under the global context |
| create_thread_partial | RC_Props.v | Closed under the global context |
| create_thread_refuted | RC_Props.v | Closed under the global context |
| once_effects_visible | OM_Props.v | Closed under the global context |
| once_effects_visible_epoch | OM_Props.v | Closed under the global context |
| once_effects_visible_windows | OM_Props.v | Closed under the global context |
| once_executions_ordered | OM_Props.v | Closed under the global context |
| once_executions_ordered_epoch | OM_Props.v | Closed under the global context |
| once_executions_ordered_windows | OM_Props.v | Closed under the global context |
| C156_effects_seen | WV_Props.v | Closed under the global context |
| C156_exclusive | WV_Props.v | Closed under the global context |
| C156_try_lock_exact | WV_Props.v | Closed under the global context |
| C157_exclusive | RV_Props.v | Closed under the global context |
| C157_owner_never_waits | RV_Props.v | Closed under the global context |
| C157_balanced | RV_Props.v | Closed under the global context |
| C157_try_lock_exact | RV_Props.v | Closed under the global context |
| C157_effects_seen | RV_Props.v | Closed under the global context |
| C157_count_safe | RV_Props.v | Closed under the global context |
| C158_exclusion | XV_Props.v | Closed under the global context |
| C158_race_free | XV_Props.v | Closed under the global context |
| C158_try_lock_synchronised | XV_Props.v | Closed under the global context |
| C158_no_lost_wakeup | XV_Props.v | Closed under the global context |
| C158_try_lock_refuted | XV_Props.v | Closed under the global context |
| C159_no_use_after_free | WR_Props.v | Closed under the global context |
| C159_frees_see | WR_Props.v | Closed under the global context |
| C159_free_after_end | WR_Props.v | Closed under the global context |
| C159_no_leak | WR_Props.v | Closed under the global context |
| C159_ids_distinct | WR_Props.v | Closed under the global context |
| C159_gone_with_object_refuted | WR_Props.v | Closed under the global context |
| C159_freed_by_itself_refuted | WR_Props.v | Closed under the global context |
| C160_overlooks_nobody | WT_Props.v | Closed under the global context |
| C160_no_surplus | WT_Props.v | Closed under the global context |
| C160_wakes_if_all_known | WT_Props.v | Closed under the global context |
| C160_wakes_if_any_refuted | WT_Props.v | Closed under the global context |
| C161_interrupts_all | GI_Props.v | Closed under the global context |
| C161_interrupts_members | GI_Props.v | Closed under the global context |
| C161_joins_all | GI_Props.v | Closed under the global context |
| C161_goes_on_partial | GI_Props.v | Closed under the global context |
| C161_goes_on_refuted | GI_Props.v | Closed under the global context |
| C161_no_clash_refuted | GI_Props.v | Closed under the global context |
