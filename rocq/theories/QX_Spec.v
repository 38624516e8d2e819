(** * Specification: exceptions thrown by operations on elements *)
From Verif Require Export QX_Model.
Set Implicit Arguments.

Section Spec.
  Variable V : Type.
  (** The elements of a bounded queue, front first, read off the array: [size] places starting at [out_], round the end *)
  Definition size (q : bq V) : nat := (in_ q + capacity_ q - out_ q) mod capacity_ q.
  Definition contents (q : bq V) : list V := map (fun k => data q ((out_ q + k) mod capacity_ q)) (seq 0 (size q)).
  Definition well_formed (q : bq V) : Prop := in_ q < capacity_ q /\ out_ q < capacity_ q.

  (** A push is all or nothing *)
  Definition push_ok (before : list V) (v : V) (after : list V) (o : outcome V) : Prop :=
    match o with Threw _ => after = before | Took _ => after = before ++ [v] | Gave _ => False end.
  (** So is a pull *)
  Definition pull_ok (before after : list V) (o : outcome V) : Prop :=
    match o with Threw _ => after = before | Gave v => before = v :: after | Took _ => False end.
  (** The same for a queue whose order does not matter *)
  Definition bag_push_ok (before : list V) (v : V) (after : list V) (o : outcome V) : Prop :=
    match o with Threw _ => after = before | Took _ => Permutation after (v :: before) | Gave _ => False end.
  Definition bag_pull_ok (before after : list V) (o : outcome V) : Prop :=
    match o with Threw _ => after = before | Gave v => Permutation before (v :: after) | Took _ => False end.
  (** A move that throws has not changed its source, which held [v] *)
  Definition keeps (t : transfer V) (v : V) : Prop := throws t = true -> left t = v.

  Definition is_pull_threw (e : event V) : bool := match e with EPullThrew _ _ => true | _ => false end.
  Definition is_push_threw (e : event V) : bool := match e with EPushThrew _ _ => true | _ => false end.
  Definition thrown (f : event V -> bool) (h : list (event V)) : nat := length (filter f h).
  (** All calls under way sleep: nothing happens any more unless the program calls again (or a wake-up is spurious) *)
  Definition quiet (s : bsys V) : Prop := wokenE s = [] /\ wokenF s = [] /\ notifyE s = [] /\ notifyF s = [].
End Spec.
