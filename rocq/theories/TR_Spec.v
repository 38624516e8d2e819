(** * Specification of task regions: what can be seen in a history (newest event first) *)
From Verif Require Import TR_Model.

(** the tasks spawned in the region of [i], in order *)
Fixpoint children (i : nat) (h : list event) : list nat :=
  match h with
  | [] => []
  | Spawned p c :: h' => if p =? i then children i h' ++ [c] else children i h'
  | _ :: h' => children i h'
  end.
(** what the body of the region of [i] threw itself *)
Fixpoint throws (i : nat) (h : list event) : list nat :=
  match h with
  | [] => []
  | Threw j n :: h' => if j =? i then throws i h' ++ [n] else throws i h'
  | _ :: h' => throws i h'
  end.
(** the exceptions with which [i] ended; None: it has not ended *)
Fixpoint result (i : nat) (h : list event) : option (list nat) :=
  match h with
  | [] => None
  | Returned j l :: h' => if j =? i then Some l else result i h'
  | _ :: h' => result i h'
  end.
(** the body of the region of [i], if it called task_region *)
Fixpoint entered (i : nat) (h : list event) : option (list cmd) :=
  match h with
  | [] => None
  | Entered j b :: h' => if j =? i then Some b else entered i h'
  | _ :: h' => entered i h'
  end.
Definition outcome (i : nat) (h : list event) : list nat := match result i h with Some l => l | None => [] end.

(** all the exceptions of a region: its body's and its tasks' *)
Definition raised (i : nat) (h : list event) : list nat := throws i h ++ flat_map (fun c => outcome c h) (children i h).

Definition is_wait (x : cmd) : bool := match x with Wait _ => true | _ => false end.
Definition nowait (b : list cmd) : Prop := Forall (fun x => is_wait x = false) b.
(** tasks without regions of their own *)
Definition flat (b : list cmd) : Prop := Forall (fun x => match x with Run (Nested _) => False | _ => True end) b.

(** a schedule: the tasks that make a step, in order *)
Fixpoint runs (cap : option nat) (c : cfg) (is : list nat) : option cfg :=
  match is with [] => Some c | i :: r => match step cap c i with Some c' => runs cap c' r | None => None end end.

(** an upper bound of the number of steps *)
Fixpoint tsize (k : task) : nat :=
  match k with
  | Plain _ => 4
  | Nested b => 5 + (fix go (l : list cmd) : nat := match l with [] => 0 | x :: r => match x with Run k => S (tsize k) | Wait _ => 2 | Throw _ => 1 end + go r end) b
  end.
Definition csize (x : cmd) : nat := match x with Run k => S (tsize k) | Wait _ => 2 | Throw _ => 1 end.
Definition bsize (b : list cmd) : nat := fold_right (fun x n => csize x + n) 0 b.

(** the tasks spawned in the region of [i], in the regions of those tasks, and so on *)
Inductive descendant (h : list event) (i : nat) : nat -> Prop :=
| desc_child k : In k (children i h) -> descendant h i k
| desc_step j k : descendant h i j -> In k (children j h) -> descendant h i k.
