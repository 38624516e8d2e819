(** * Specification of interruption, over histories (newest event first) *)
From Verif Require Export IT_Model.
Set Implicit Arguments.

(** A request to [t] has been made and not been delivered. *)
Fixpoint pending (t : nat) (h : list event) : bool :=
  match h with
  | [] => false
  | ERequest _ t' :: h' => if t' =? t then true else pending t h'
  | EThrow t' _ :: h' => if t' =? t then false else pending t h'
  | _ :: h' => pending t h'
  end.

(** thread_interrupted is thrown only with interruption enabled and a request pending (so, as throwing ends it, once per
    request), and no interruption point is passed with interruption enabled and a request pending. *)
Fixpoint delivered_ok (t : nat) (h : list event) : Prop :=
  match h with
  | [] => True
  | EThrow t' en :: h' => (t' = t -> en = true /\ pending t h' = true) /\ delivered_ok t h'
  | EPass t' en :: h' => (t' = t -> en = true -> pending t h' = false) /\ delivered_ok t h'
  | _ :: h' => delivered_ok t h'
  end.

(** The last call [t] made. *)
Fixpoint last_call (t : nat) (h : list event) : option op :=
  match h with
  | [] => None
  | ECall t' o :: h' => if t' =? t then Some o else last_call t h'
  | _ :: h' => last_call t h'
  end.

(** [t] is blocked in an interruptible wait on [c]: asleep, with interruption enabled when the wait began. *)
Definition asleep_interruptibly (s : sys) (t c : nat) : Prop :=
  exists x, nth_error (thrs s) t = Some x /\ t_pc x = PSleep c true.
Definition asleep (s : sys) (t c : nat) : Prop :=
  exists x int, nth_error (thrs s) t = Some x /\ t_pc x = PSleep c int.

(** [u] is inside a call of interrupt() on [t]. *)
Definition interrupting (s : sys) (u t : nat) : Prop :=
  exists x, nth_error (thrs s) u = Some x /\
    match t_pc x with PIntr t' | PIntrSet t' | PIntrI t' _ | PIntrB t' _ | PIntrUI t' _ | PIntrUD t' => t' = t | _ => False end.

Definition idle (s : sys) (t : nat) : Prop := exists x, nth_error (thrs s) t = Some x /\ t_pc x = PIdle.

(** Thread [t]'s next step is to lock [l], which somebody has locked. *)
Definition blocked_on (s : sys) (t : nat) (l : lock) : Prop :=
  exists x m, nth_error (thrs s) t = Some x /\ next s t x = Some m /\ m_act m = AAcq l /\ own s l <> None.
(** Thread [t] can take a step of its call. *)
Definition can_run (s : sys) (t : nat) : Prop :=
  exists x m, nth_error (thrs s) t = Some x /\ next s t x = Some m /\ forall l, m_act m = AAcq l -> own s l = None.

(** What interruption_enabled() should be: a disable_interruption scope disables, a restore_interruption scope brings back
    what was in force before the disable_interruption it names (scope object number k), and the end of every scope
    brings back what was in force before that scope.  Stack entries: is it a disable scope, and the value before it. *)
Definition ideal_scope (o : op) (st : bool * list (bool * bool)) : bool * list (bool * bool) :=
  let (en, stk) := st in
  match o with
  | ODisable => (false, (true, en) :: stk)
  | ORestore k => match nth_error stk k with
                  | Some (true, was) => (if was then true else en, (false, en) :: stk)
                  | _ => st
                  end
  | OEndScope => match stk with (_, before) :: stk' => (before, stk') | [] => st end
  | _ => st
  end.
Fixpoint ideal (e0 : bool) (t : nat) (h : list event) : bool * list (bool * bool) :=
  match h with
  | [] => (e0, [])
  | ECall t' o :: h' => if t' =? t then ideal_scope o (ideal e0 t h') else ideal e0 t h'
  | _ :: h' => ideal e0 t h'
  end.
Definition should_be_enabled e0 t h : bool := fst (ideal e0 t h).
(** [t] constructed restore_interruption objects only while interruption was disabled. *)
Fixpoint restores_when_disabled (e0 : bool) (t : nat) (h : list event) : Prop :=
  match h with
  | [] => True
  | ECall t' (ORestore _) :: h' => (t' = t -> should_be_enabled e0 t h' = false) /\ restores_when_disabled e0 t h'
  | _ :: h' => restores_when_disabled e0 t h'
  end.

(** ** Executions and notifications *)
(** [path R s0 s1]: an execution from [s0] to [s1] every step of which satisfies [R]. *)
Inductive path (R : sys -> sys -> Prop) (s0 : sys) : sys -> Prop :=
| p_refl : path R s0 s0
| p_step s s' : path R s0 s -> step s s' -> R s s' -> path R s0 s'.

(** [t] is in a wait on [c] in which it has released the user's mutex, and has not been woken. *)
Definition waiting (s : sys) (t c : nat) : Prop :=
  exists x int, nth_error (thrs s) t = Some x /\ (t_pc x = PWaitGo c int \/ t_pc x = PSleep c int).
(** [u] has called [o] and has not taken a step since. *)
Definition called (s : sys) (u : nat) (o : op) : Prop :=
  exists x, nth_error (thrs s) u = Some x /\ start o = Some (t_pc x).
