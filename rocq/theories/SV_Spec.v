(** * Specification of synchronized_value: atomic operations on plain values *)

From Verif Require Export SV_Model.
Set Implicit Arguments.

Definition atomic (op : vop) (s : vals) : vals * vres :=
  match op with
  | OGet i => (s, VNat (s i))
  | OSet i v => (write s i v, VUnit)
  | OSwapT i v => (write s i v, VNat (s i))
  | OApply i f => (write s i (fst (f (s i))), VNat (snd (f (s i))))
  | OAssign i j => (write s i (s j), VUnit)
  | OSwap i j => (write (write s i (s j)) j (s i), VUnit)
  | OCmp f i j => (s, VBool (f (s i) (s j)))
  end.

(** Perform the committed operations one after the other (history: newest first). *)
Fixpoint replay (init : vals) (hist : list vevent) : vals :=
  match hist with
  | [] => init
  | VCommit _ op _ :: hist' => fst (atomic op (replay init hist'))
  | _ :: hist' => replay init hist'
  end.

(** Every committed operation has the result of the atomic operation. *)
Fixpoint results_ok (init : vals) (hist : list vevent) : Prop :=
  match hist with
  | [] => True
  | VCommit _ op r :: hist' => r = snd (atomic op (replay init hist')) /\ results_ok init hist'
  | _ :: hist' => results_ok init hist'
  end.

(** What thread [t] is doing according to the history: nothing; called [op]; committed [op] with result [r].
    [None]: its events are not a sequence of call, commit, return with the same operation and result, or of call,
    exception. *)
Inductive vprog := PIdle | PCalled (op : vop) | PCommitted (op : vop) (r : vres).
Inductive follows (t : nat) : list vevent -> vprog -> Prop :=
| f_nil : follows t [] PIdle
| f_call h op : follows t h PIdle -> follows t (VCall t op :: h) (PCalled op)
| f_commit h op r : follows t h (PCalled op) -> follows t (VCommit t op r :: h) (PCommitted op r)
| f_ret h op r : follows t h (PCommitted op r) -> follows t (VRet t op r :: h) PIdle
| f_exn h op : follows t h (PCalled op) -> follows t (VExn t op :: h) PIdle
| f_other h e p : follows t h p -> (match e with VCall u _ | VCommit u _ _ | VRet u _ _ | VExn u _ => u end) <> t -> follows t (e :: h) p.

(** Thread [t] waits in a lock() call for a mutex that is locked. *)
Definition vwaits (s : vsys) (t m : nat) : Prop :=
  exists op h cs tr, nth_error (v_thr s) t = Some (VLock op h cs) /\ run_lock (lock_of op) h = Pend (ALock m) tr /\ v_own s m <> None.
Definition vdone (s : vsys) (t : nat) : Prop := nth_error (v_thr s) t = Some (VIdle []).
