(** * Specification of thread_specific_ptr and at_thread_exit: counting events *)
From Verif Require Export TS_Model.
Set Implicit Arguments.

Definition count (p : event -> bool) (h : list event) : nat := length (filter p h).
Definition is_installed k v e := match e with EInstalled k' v' => (k' =? k) && (v' =? v) | _ => false end.
Definition is_cleaned k v e := match e with ECleaned k' v' => (k' =? k) && (v' =? v) | _ => false end.
Definition is_released k v e := match e with EReleased k' v' => (k' =? k) && (v' =? v) | _ => false end.
Definition is_registered g e := match e with ERegistered g' => g' =? g | _ => false end.
Definition is_run g e := match e with ERan g' => g' =? g | _ => false end.

(** how often [v] was installed in [k], cleaned up, released; how often [g] was registered, run *)
Definition installed k v s := count (is_installed k v) (log s).
Definition cleaned k v s := count (is_cleaned k v) (log s).
Definition released k v s := count (is_released k v) (log s).
Definition registered g s := count (is_registered g) (log s).
Definition ran g s := count (is_run g) (log s).
(** [v] is the current value of [k], as get() tells *)
Definition held k v s : nat := if get k s =? v then 1 else 0.
