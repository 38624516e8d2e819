(** * Specification of the time arithmetic: integers *)
From Verif Require Export TM_Model.
Set Implicit Arguments.

(** A 64-bit signed integer. *)
Definition int64 (z : Z) : Prop := - 2 ^ 63 <= z < 2 ^ 63.

(** The mathematical number of nanoseconds of a timespec. *)
Definition value (ts : timespec) : Z := tv_sec ts * 1000000000 + tv_nsec ts.

(** POSIX' normal form. *)
Definition normal (ts : timespec) : Prop := 0 <= tv_nsec ts < 1000000000.
