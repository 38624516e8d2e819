(** * Specification of xtime *)
From Verif Require Export XT_Model.
(** the time an xtime stands for, in nanoseconds since 1970 *)
Definition nanoseconds (x : xtime) : Z := sec x * 1000000000 + nsec x.
(** "0 <= xtime.nsec < NANOSECONDS_PER_SECOND" (xtime.hpp 42); sec fits its type *)
Definition normal (x : xtime) : Prop := 0 <= nsec x < 1000000000 /\ - 2 ^ 63 <= sec x < 2 ^ 63.
(** sec can be converted to long *)
Definition fits (lbits : Z) (x : xtime) : Prop := - 2 ^ (lbits - 1) <= sec x < 2 ^ (lbits - 1).
