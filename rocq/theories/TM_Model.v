(** * Model of the time arithmetic (include/boost/thread/detail/platform_time.hpp)

    Linux, 64 bit: boost::time_max_t (intmax_t), long and time_t are 64-bit signed integers.  Every operation whose
    mathematical result does not fit is undefined behaviour in C++; here it is [None]. *)

From Coq Require Export ZArith Lia List Bool.
Set Implicit Arguments.
Open Scope Z_scope.

Definition MIN64 : Z := - 2 ^ 63.
Definition MAX64 : Z := 2 ^ 63 - 1.
Definition in64 (z : Z) : bool := (MIN64 <=? z) && (z <=? MAX64).

(** the result of a signed 64-bit operation *)
Definition ck (z : Z) : option Z := if in64 z then Some z else None.
Definition bind (A B : Type) (x : option A) (f : A -> option B) : option B := match x with Some a => f a | None => None end.
Notation "'do' x <- e ; f" := (bind e (fun x => f)) (at level 200, x name, e at level 100, f at level 200).

Definition G : Z := 1000000000.

(** struct timespec *)
Record timespec := TS { tv_sec : Z; tv_nsec : Z }.

(** ns_to_timespec, platform_time.hpp 117-124.  C++ division truncates towards zero: [Z.quot]. *)
Definition ns_to_timespec (ns : Z) : option timespec :=
  do s <- ck (Z.quot ns G);
  do m <- ck (s * G);
  do r <- ck (ns - m);
  Some (TS s r).

(** timespec_to_ns, platform_time.hpp 125-128 *)
Definition timespec_to_ns (ts : timespec) : option Z :=
  do m <- ck (tv_sec ts * G);
  ck (m + tv_nsec ts).

(** platform_duration::getMs, platform_time.hpp 169-183 *)
Definition getMs (ts : timespec) : option Z :=
  do ns <- timespec_to_ns ts;
  if 0 <=? ns
  then do a <- ck (ns + 999999); ck (Z.quot a 1000000)
  else do a <- ck (ns - 999999); ck (Z.quot a 1000000).

(** platform_duration(posix_time::time_duration), platform_time.hpp 146-156.  The duration is a number of ticks,
    [tps] of them a second; Boost.DateTime's total_seconds() and fractional_seconds() truncate towards zero.
    The special values are handled by the callers before. *)
Definition of_time_duration (ticks tps : Z) : option timespec :=
  do f <- ck (Z.rem ticks tps * Z.quot G tps);
  Some (TS (Z.quot ticks tps) f).

(** operator== and operator<, platform_time.hpp 198-221, 254-277, 357-380 (the other comparisons are their negations
    and swaps) *)
Definition ts_eqb (a b : timespec) : option bool := do x <- timespec_to_ns a; do y <- timespec_to_ns b; Some (x =? y).
Definition ts_ltb (a b : timespec) : option bool := do x <- timespec_to_ns a; do y <- timespec_to_ns b; Some (x <? y).

(** timepoint + duration, timepoint - timepoint, platform_time.hpp 278-289, 382-393 *)
Definition ts_add (a b : timespec) : option timespec :=
  do x <- timespec_to_ns a; do y <- timespec_to_ns b; do z <- ck (x + y); ns_to_timespec z.
Definition ts_sub (a b : timespec) : option timespec :=
  do x <- timespec_to_ns a; do y <- timespec_to_ns b; do z <- ck (x - y); ns_to_timespec z.

(** platform_milliseconds, platform_time.hpp 223-226 *)
Definition platform_milliseconds (ms : Z) : option timespec := do x <- ck (ms * 1000000); ns_to_timespec x.

(** mono_platform_timepoint::getMax, platform_time.hpp 339-350 *)
Definition getMax : timespec := TS MAX64 999999999.

(** POSIX: pthread_cond_timedwait and nanosleep fail with EINVAL when tv_nsec is not in [0, 10^9). *)
Definition os_accepts (ts : timespec) : bool := (0 <=? tv_nsec ts) && (tv_nsec ts <? G).

(** How a timed wait of condition_variable ends when nobody notifies: it times out, or, when the OS rejects the
    deadline, condition_variable.hpp 133-140 throws condition_error. *)
Inductive wait_end := TimesOut | ThrowsConditionError.
Definition do_wait_until (ts : timespec) : wait_end := if os_accepts ts then TimesOut else ThrowsConditionError.

(** condition_variable::wait_until(lock, t) for the internal (monotonic) clock, condition_variable_fwd.hpp 231-240 *)
Definition cv_wait_until_steady (t : Z) : option wait_end := do ts <- ns_to_timespec t; Some (do_wait_until ts).

(** condition_variable::wait_until(lock, t) for any other clock, condition_variable_fwd.hpp 242-267: [cnow] is
    Clock::now(), [mnow] the internal clock's now(), both int64 nanoseconds (Boost.Chrono). *)
Definition cv_wait_until_clock (t cnow mnow : Z) : option wait_end :=
  do d <- ck (t - cnow);
  do x <- ck (mnow + d);
  do ts <- ns_to_timespec x;
  Some (do_wait_until ts).

(** the same with a predicate that stays false, one round, condition_variable_fwd.hpp 293-312: a deadline that has passed
    is noticed before waiting ([None] of the inner option: the loop is left without waiting) *)
Definition cv_wait_until_clock_pred (t cnow mnow : Z) : option (option wait_end) :=
  do d <- ck (t - cnow);
  if d <=? 0 then Some None
  else do x <- ck (mnow + Z.min d 100000000);
       do ts <- ns_to_timespec x;
       Some (Some (do_wait_until ts)).

(** no_interruption_point::hidden::sleep_for_internal, src/pthread/thread.cpp 446-464: nanosleep is called only for a positive
    duration.  [Some None]: returns at once; [Some (Some b)]: nanosleep is called and accepts ([b]) the value. *)
Definition sleep_for_internal (ts : timespec) : option (option bool) :=
  do z <- ns_to_timespec 0;
  do b <- ts_ltb z ts;
  if b then Some (Some (os_accepts ts)) else Some None.
