(** * Model of the 64-bit tick count on old Windows

    Source: src/win32/thread_primitives.cpp 43-73 and 91-146 (get_tick_count64, refresh_get_tick_count64, get_tick_count_init), used when the system has no GetTickCount64;
    all timed waits of the Windows implementation measure time with it (win32/thread_primitives.hpp, gettickcount64).

    Any number of threads; the system's thread that calls refresh_get_tick_count64 is one of them.  GetTickCount returns the milliseconds since the system was started,
    modulo 2^32 (its resolution is taken to be 1 ms).  The loads and stores of [ticks] are atomic; the accesses are sequentially consistent, a simplification.
    get_tick_count_init ends with a call of get_tick_count64 whatever happens in it (144-145), so both are the same here. *)
From Coq Require Export ZArith List Lia Bool.
Export ListNotations.
Open Scope Z_scope.
Set Implicit Arguments.

Definition W : Z := 4294967296.

(** Where a thread is: not in a call; it has loaded g_state.ticks (57); it has called GetTickCount too (59) and will store [v] *)
Inductive pc := Idle | Loaded (old : Z) | Read (v : Z).
(** With the time, in ms since the system was started, and the thread: a call begins and loads the state, calls GetTickCount, returns.  [stamp]: when GetTickCount
    was called for the value loaded (a ghost) *)
Inductive event := EBegin (now : Z) (t : nat) | ETicks (now : Z) (t : nat) (stamp : Z) | EReturn (now : Z) (t : nat) (v : Z).

(** [now]: the time; [ticks]: g_state.ticks; [ticks_at]: when GetTickCount was called for it (a ghost); [at_ t]: the same for the value that thread [t] has loaded or
    will store *)
Record sys := Sys { now : Z; ticks : Z; ticks_at : Z; pcs : nat -> pc; at_ : nat -> Z; hist : list event }.
Definition upd {A} (f : nat -> A) (t : nat) (x : A) : nat -> A := fun u => if Nat.eqb u t then x else f u.

(** 61-62: [old]: the state; [new_ticks]: what GetTickCount has returned *)
Definition new_state (old new_ticks : Z) : Z :=
  let old_ticks := old mod W in
  (old - old_ticks) + (if new_ticks <? old_ticks then W else 0) + new_ticks.

Inductive step (s : sys) : sys -> Prop :=
| s_time d : 0 <= d -> step s (Sys (now s + d) (ticks s) (ticks_at s) (pcs s) (at_ s) (hist s))
(* 57 *)
| s_load t : pcs s t = Idle ->
    step s (Sys (now s) (ticks s) (ticks_at s) (upd (pcs s) t (Loaded (ticks s))) (upd (at_ s) t (ticks_at s)) (EBegin (now s) t :: hist s))
(* 59-62 *)
| s_read t old : pcs s t = Loaded old ->
    step s (Sys (now s) (ticks s) (ticks_at s) (upd (pcs s) t (Read (new_state old (now s mod W)))) (upd (at_ s) t (now s)) (ETicks (now s) t (at_ s t) :: hist s))
(* 64-66 *)
| s_store t v : pcs s t = Read v ->
    step s (Sys (now s) v (at_ s t) (upd (pcs s) t Idle) (at_ s) (EReturn (now s) t v :: hist s)).

(** The program starts at time [start]: ticks is zero, as if read when the low 32 bits were last zero *)
Definition sys0 (start : Z) : sys := Sys start 0 (start - start mod W) (fun _ => Idle) (fun _ => start) [].
Inductive reach (start : Z) : sys -> Prop :=
| r_init : reach start (sys0 start)
| r_step s s' : reach start s -> step s s' -> reach start s'.
