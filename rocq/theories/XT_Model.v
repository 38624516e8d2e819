(** * Model of xtime and of thread attributes

    Source: include/boost/thread/xtime.hpp 34-87 (xtime, its conversion to system_time, get_xtime, xtime_cmp);
    include/boost/thread/pthread/thread_data.hpp 42-73 (thread_attributes: set_stack_size, get_stack_size).

    A system_time is a number of microseconds since 1970 (boost::posix_time with its default resolution); infinities and
    not_a_date_time are left out.  pthread_attr_setstacksize is given by its specification: it stores the size, or fails
    if the size is less than PTHREAD_STACK_MIN. *)
From Coq Require Export ZArith Lia.
Open Scope Z_scope.

(** struct xtime, 34-45: sec of 64 bits, nsec *)
Record xtime := Xtime { sec : Z; nsec : Z }.

Definition ticks_per_second : Z := 1000000.
(** a value converted to a signed type of [bits] bits *)
Definition to_signed (bits x : Z) : Z := (x + 2 ^ (bits - 1)) mod 2 ^ bits - 2 ^ (bits - 1).

(** operator system_time(), 47-56; [lbits]: the size of long; / of C++ rounds towards zero *)
Definition to_system_time (lbits : Z) (x : xtime) : Z := to_signed lbits (sec x) * ticks_per_second + Z.quot (nsec x + 500) 1000.
(** get_xtime, 60-68: time_duration::total_seconds() and fractional_seconds() are / and % of the ticks *)
Definition get_xtime (t : Z) : xtime := Xtime (Z.quot t ticks_per_second) (Z.rem t ticks_per_second * (1000000000 / ticks_per_second)).
(** xtime_cmp, 81-87; the difference is converted to int *)
Definition xtime_cmp (a b : xtime) : Z :=
  if sec a =? sec b then to_signed 32 (nsec a - nsec b) else if sec b <? sec a then 1 else -1.

(** ** The size of the stack *)
(** [bits]: of std::size_t; [page]: of a page; [mn]: PTHREAD_STACK_MIN; [old]: the size stored.  The result: the size stored, and whether
    pthread_attr_setstacksize has succeeded (53-66). *)
Definition wrap (bits x : Z) : Z := x mod 2 ^ bits.
Definition set_stack_size (bits page mn old size : Z) : Z * bool :=
  if size =? 0 then (old, true)
  else
    let size1 := if size <? mn then mn else size in
    let size2 := wrap bits (wrap bits (size1 + page - 1) / page * page) in
    if size2 <? mn then (old, false) else (size2, true).
