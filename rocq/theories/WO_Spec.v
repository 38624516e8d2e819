(** * call_once on Windows: specification *)
From Verif Require Export WO_Model.
Set Implicit Arguments.

(** How often the function was called, has returned and has thrown. *)
Fixpoint starts (h : list event) : nat := match h with [] => 0 | EStart _ :: h' => S (starts h') | _ :: h' => starts h' end.
Fixpoint ends (h : list event) : nat := match h with [] => 0 | EEnd _ :: h' => S (ends h') | _ :: h' => ends h' end.
Fixpoint throws (h : list event) : nat := match h with [] => 0 | EThrow _ :: h' => S (throws h') | _ :: h' => throws h' end.

(** What thread t is doing: outside, in call_once, in the function; and what its latest call of the function did *)
Inductive place := Outside | Inside | InFunction | Returned | Threw.
Fixpoint place_of (t : nat) (h : list event) : place :=
  match h with
  | [] => Outside
  | ECall u :: h' => if u =? t then Inside else place_of t h'
  | EStart u :: h' => if u =? t then InFunction else place_of t h'
  | EEnd u :: h' => if u =? t then Returned else place_of t h'
  | EThrow u :: h' => if u =? t then Threw else place_of t h'
  | ERet u _ :: h' => if u =? t then Outside else place_of t h'
  end.

(** Each time the function is called, it has not returned before, and all earlier calls have thrown. *)
Fixpoint one_at_a_time (h : list event) : Prop :=
  match h with
  | [] => True
  | EStart _ :: h' => (ends h' = 0 /\ starts h' = throws h') /\ one_at_a_time h'
  | _ :: h' => one_at_a_time h'
  end.

(** Each time call_once returns: if it called the function, that call has just returned; if it did not, the function has returned before;
    if it throws, its own call of the function has thrown. *)
Fixpoint right_returns (h : list event) : Prop :=
  match h with
  | [] => True
  | ERet t r :: h' =>
      match r with
      | RRan => place_of t h' = Returned
      | RSkipped => place_of t h' = Inside /\ ends h' = 1
      | RThrew => place_of t h' = Threw
      end /\ right_returns h'
  | _ :: h' => right_returns h'
  end.

(** No thread can take a step; only the function may return or new calls be made. *)
Definition at_rest (s : sys) : Prop := forall t, exec s (LRun t) = None.

(** Steps and returns of the function, but no new calls. *)
Definition no_call (l : label) : Prop := match l with LCall _ => False | _ => True end.
Definition is_step_of (t : nat) (l : label) : bool := match l with LRun u => u =? t | _ => false end.
Definition steps_of (t : nat) (ls : list label) : nat := length (filter (is_step_of t) ls).
