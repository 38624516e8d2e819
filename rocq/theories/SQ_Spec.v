(** * Unbounded queues, independently of the implementation *)

From Coq Require Import Permutation.
From Verif Require Import Monitor SQ_Model.
Set Implicit Arguments.

Section Spec.
  Variables V D : Type.

  (** [take l v l']: from the contents [l], an extraction may give [v] and leave [l']. *)
  Variable take : list V -> V -> list V -> Prop.
  (** [holds d l]: the container [d] holds the elements [l]. *)
  Variable holds : D -> list V -> Prop.

  Record uq := MkU { u_items : list V; u_closed : bool }.

  Inductive uq_step : uq -> qop V -> qres V D -> uq -> Prop :=
  | u_push op x r q :
      (op, r) = (QPush x, QVoid) \/ (op, r) = (QTryPush x, QSt qs_success) \/
      (op, r) = (QWaitPush x, QSt qs_success) \/ (op, r) = (QNBPush x, QSt qs_success) ->
      u_closed q = false -> uq_step q op r (MkU (u_items q ++ [x]) false)
  | u_push_closed op x r q :
      (op, r) = (QPush x, QThrowClosed) \/ (op, r) = (QTryPush x, QSt qs_closed) \/
      (op, r) = (QWaitPush x, QSt qs_closed) \/ (op, r) = (QNBPush x, QSt qs_closed) ->
      u_closed q = true -> uq_step q op r q
  | u_pull op v q l' :
      In op [QPull; QTryPull; QWaitPull; QNBPull; QPullUntil] ->
      take (u_items q) v l' -> uq_step q op (QGot v) (MkU l' (u_closed q))
  | u_pull_closed op r q :
      (op, r) = (QPull, QThrowClosed) \/ (op, r) = (QTryPull, QSt qs_closed) \/
      (op, r) = (QWaitPull, QSt qs_closed) \/ (op, r) = (QNBPull, QSt qs_closed) \/
      (op, r) = (QPullUntil, QSt qs_closed) ->
      u_items q = [] -> u_closed q = true -> uq_step q op r q
  | u_empty op r q :
      (op, r) = (QTryPull, QSt qs_empty) \/ (op, r) = (QNBPull, QSt qs_empty) \/
      (op, r) = (QPullUntil, QSt qs_timeout) ->
      u_items q = [] -> u_closed q = false -> uq_step q op r q
  | u_busy op q :
      (exists x, op = QNBPush x) \/ op = QNBPull -> uq_step q op (QSt qs_busy) q
  | u_intr op q : In op [QPull; QWaitPull; QPullUntil] -> uq_step q op QThrowIntr q
  | u_close q : uq_step q QClose QVoid (MkU (u_items q) true)
  | u_is_closed q : uq_step q QClosed (QBool (u_closed q)) q
  | u_is_empty q b : (b = true <-> u_items q = []) -> uq_step q QEmpty (QBool b) q
  | u_is_full q : uq_step q QFull (QBool false) q
  (* size_type has 64 bits *)
  | u_size q : uq_step q QSize (QSize_ (Z.of_nat (length (u_items q)) mod 2 ^ 64)%Z) q
  (* underlying_queue() hands out everything and leaves an empty queue *)
  | u_underlying q d : holds d (u_items q) -> uq_step q QUnderlying (QMoved d) (MkU [] (u_closed q)).

  Inductive uq_history : list (event (qop V) (qres V D)) -> uq -> Prop :=
  | uh_nil : uq_history [] (MkU [] false)
  | uh_call t op h q : uq_history h q -> uq_history (ECall _ t op :: h) q
  | uh_done t op r h q q' :
      uq_history h q -> uq_step q op r q' -> uq_history (EDone t op r :: h) q'.

  (** Values accepted by pushes and delivered by pulls, oldest first. *)
  Definition q_accepted_by (op : qop V) (r : qres V D) : list V :=
    match op, r with
    | QPush x, QVoid => [x]
    | QTryPush x, QSt qs_success | QWaitPush x, QSt qs_success | QNBPush x, QSt qs_success => [x]
    | _, _ => []
    end.
  Definition q_delivered_by (r : qres V D) : list V :=
    match r with QGot v => [v] | _ => [] end.
  Fixpoint q_accepted (h : list (event (qop V) (qres V D))) : list V :=
    match h with
    | [] => []
    | ECall _ _ _ :: h' => q_accepted h'
    | EDone _ op r :: h' => q_accepted h' ++ q_accepted_by op r
    end.
  Fixpoint q_delivered (h : list (event (qop V) (qres V D))) : list V :=
    match h with
    | [] => []
    | ECall _ _ _ :: h' => q_delivered h'
    | EDone _ _ r :: h' => q_delivered h' ++ q_delivered_by r
    end.
  (** How many elements are stored, and how many have been pulled since the queue
      was last empty, after a history. *)
  Fixpoint pulled_since_empty (h : list (event (qop V) (qres V D))) : nat * nat :=
    match h with
    | [] => (0, 0)
    | ECall _ _ _ :: h' => pulled_since_empty h'
    | EDone _ op r :: h' =>
        let (n, k) := pulled_since_empty h' in
        match r with
        | QGot _ => if n =? 1 then (0, 0) else (n - 1, S k)
        | QMoved _ => (0, 0)
        | _ => (n + length (q_accepted_by op r), k)
        end
    end.
  (** underlying_queue() was only called when nothing had been pulled since the queue
      was last empty. *)
  Fixpoint moved_untouched (h : list (event (qop V) (qres V D))) : Prop :=
    match h with
    | [] => True
    | EDone _ QUnderlying _ :: h' => snd (pulled_since_empty h') = 0 /\ moved_untouched h'
    | _ :: h' => moved_untouched h'
    end.
  (** close() has taken effect. *)
  Definition q_closed_in (h : list (event (qop V) (qres V D))) : Prop :=
    exists t r, In (EDone t QClose r) h.
End Spec.

(** First in, first out. *)
Definition fifo_take {V} (l : list V) (v : V) (l' : list V) : Prop := l = v :: l'.

(** Any greatest element ([lt]: the comparator). *)
Definition greatest_take {V} (lt : V -> V -> bool) (l : list V) (v : V) (l' : list V) : Prop :=
  Permutation l (v :: l') /\ forall y, In y l -> lt v y = false.

(** The elements a devector holds, front first. *)
Definition dv_stored {V} (d : devector V) : list V := skipn (dv_front d) (dv_data d).

(** Sequences of devector updates, on lists; [None]: the caller broke a precondition
    (pop_front of an empty sequence). *)
Inductive dv_op (V : Type) := DPushBack (x : V) | DPopFront.
Arguments DPopFront {V}.
Definition seq_do {V} (l : option (list V)) (o : dv_op V) : option (list V) :=
  match l, o with
  | None, _ => None
  | Some l, DPushBack x => Some (l ++ [x])
  | Some l, DPopFront => match l with [] => None | _ :: l' => Some l' end
  end.
Definition dv_do {V} (d : devector V) (o : dv_op V) : devector V :=
  match o with DPushBack x => dv_push_back x d | DPopFront => dv_pop_front d end.

(** C++ standard, [alg.heap.operations]: a range is a heap with respect to [lt] if no
    element is less than one of its children; push_heap turns a heap followed by
    one more element into a heap of the same elements; pop_heap moves the first
    element to the end and makes a heap of the others. *)
Definition is_heap {V} (lt : V -> V -> bool) (l : list V) : Prop :=
  forall i x y, nth_error l (S i) = Some x -> nth_error l (i / 2) = Some y -> lt y x = false.
Record PQ_contract {V} (lt : V -> V -> bool) (push_heap pop_heap : list V -> list V) : Prop := {
  push_heap_ok : forall l x, is_heap lt l ->
    is_heap lt (push_heap (l ++ [x])) /\ Permutation (push_heap (l ++ [x])) (l ++ [x]);
  pop_heap_ok : forall v l, is_heap lt (v :: l) ->
    exists l', pop_heap (v :: l) = l' ++ [v] /\ Permutation l' l /\ is_heap lt l'
}.
(** [lt] is a strict weak order (what the standard requires of Compare). *)
Record strict_weak {V} (lt : V -> V -> bool) : Prop := {
  sw_irrefl : forall x, lt x x = false;
  sw_trans : forall x y z, lt x y = true -> lt y z = true -> lt x z = true;
  sw_negtrans : forall x y z, lt x y = false -> lt y z = false -> lt x z = false
}.
