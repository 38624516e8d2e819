(** * What a bounded FIFO queue is, independently of the implementation *)

From Verif Require Import Monitor BQ_Model.
Set Implicit Arguments.

Section Spec.
  Variable V : Type.

  (** The abstract queue: stored elements, oldest first, and whether it is closed. *)
  Record aq := MkA { items : list V; aclosed : bool }.

  (** [fifo_step max q op r q']: on the abstract queue [q] of capacity [max], the
      operation [op] may return [r] and leave [q'].  Nothing is said about the
      value of size() here (see C03). *)
  Inductive fifo_step (max : nat) : aq -> bop V -> bres V -> aq -> Prop :=
  (* a push that succeeds: queue open, room available *)
  | f_push op x r q :
      (op, r) = (BPush x, BVoid) \/
      (op, r) = (BTryPush x, BBool true) \/ (op, r) = (BTryPushNB x, BBool true) \/
      (op, r) = (BTryPushBack x, BSt st_success) \/
      (op, r) = (BNBPushBack x, BSt st_success) \/
      (op, r) = (BWaitPushBack x, BSt st_success) ->
      aclosed q = false -> length (items q) < max ->
      fifo_step max q op r (MkA (items q ++ [x]) false)
  (* a push that reports full: exactly [max] elements stored *)
  | f_full op x r q :
      (op, r) = (BTryPush x, BBool false) \/ (op, r) = (BTryPushNB x, BBool false) \/
      (op, r) = (BTryPushBack x, BSt st_full) \/ (op, r) = (BNBPushBack x, BSt st_full) ->
      aclosed q = false -> length (items q) = max ->
      fifo_step max q op r q
  (* a push that reports closure *)
  | f_push_closed op x r q :
      (op, r) = (BPush x, BThrowClosed) \/
      (op, r) = (BTryPush x, BThrowClosed) \/ (op, r) = (BTryPushNB x, BThrowClosed) \/
      (op, r) = (BTryPushBack x, BSt st_closed) \/ (op, r) = (BNBPushBack x, BSt st_closed) \/
      (op, r) = (BWaitPushBack x, BSt st_closed) \/ (op, r) = (BWaitPushBack x, BThrowClosed) ->
      aclosed q = true ->
      fifo_step max q op r q
  (* a pull that succeeds delivers the oldest element *)
  | f_pull op v q vs :
      op = BPull \/ op = BTryPull \/ op = BTryPullNB \/ op = BTryPullFront \/
      op = BNBPullFront \/ op = BWaitPullFront ->
      items q = v :: vs ->
      fifo_step max q op (BGot v) (MkA vs (aclosed q))
  (* a pull that reports empty: nothing stored, open *)
  | f_empty op r q :
      (op, r) = (BTryPull, BBool false) \/ (op, r) = (BTryPullNB, BBool false) \/
      (op, r) = (BTryPullFront, BSt st_empty) \/ (op, r) = (BNBPullFront, BSt st_empty) ->
      items q = [] -> aclosed q = false ->
      fifo_step max q op r q
  (* a pull that reports closure: nothing stored, closed *)
  | f_pull_closed op r q :
      (op, r) = (BPull, BThrowClosed) \/
      (op, r) = (BTryPull, BThrowClosed) \/ (op, r) = (BTryPullNB, BThrowClosed) \/
      (op, r) = (BTryPullFront, BSt st_closed) \/
      (op, r) = (BNBPullFront, BSt st_closed) \/ (op, r) = (BWaitPullFront, BSt st_closed) ->
      items q = [] -> aclosed q = true ->
      fifo_step max q op r q
  (* a non-blocking attempt that found the mutex held has no effect *)
  | f_busy op r q :
      (exists x, (op, r) = (BTryPushNB x, BBool false) \/ (op, r) = (BNBPushBack x, BSt st_busy)) \/
      (op, r) = (BTryPullNB, BBool false) \/ (op, r) = (BNBPullFront, BSt st_busy) ->
      fifo_step max q op r q
  (* an interrupted operation has no effect *)
  | f_intr op q :
      op = BPull \/ op = BWaitPullFront \/ (exists x, op = BPush x \/ op = BWaitPushBack x) ->
      fifo_step max q op (BThrowIntr) q
  | f_close q : fifo_step max q (BClose) (BVoid) (MkA (items q) true)
  | f_closed q : fifo_step max q (BClosed) (BBool (aclosed q)) q
  | f_is_empty q b : (b = true <-> items q = []) -> fifo_step max q (BEmpty) (BBool b) q
  | f_is_full q b : (b = true <-> length (items q) = max) -> fifo_step max q (BFull) (BBool b) q
  | f_capacity q : fifo_step max q (BCapacity) (BNat max) q
  | f_size q n : fifo_step max q (BSize) (BNat n) q.

  (** A history (newest event first) is a history of the bounded FIFO ending in [q]:
      the operations, each taken to happen at the moment it takes effect, are steps
      of the abstract queue. *)
  Inductive fifo_history (max : nat) : list (event (bop V) (bres V)) -> aq -> Prop :=
  | fh_nil : fifo_history max [] (MkA [] false)
  | fh_call t op h q : fifo_history max h q -> fifo_history max (ECall _ t op :: h) q
  | fh_done t op r h q q' :
      fifo_history max h q -> fifo_step max q op r q' ->
      fifo_history max (EDone t op r :: h) q'.

  (** The value accepted by a successful push. *)
  Definition accepted_by (op : bop V) (r : bres V) : list V :=
    match op, r with
    | BPush x, BVoid => [x]
    | BTryPush x, BBool true | BTryPushNB x, BBool true => [x]
    | BTryPushBack x, BSt st_success | BNBPushBack x, BSt st_success
    | BWaitPushBack x, BSt st_success => [x]
    | _, _ => []
    end.

  (** The value handed over by a successful pull. *)
  Definition delivered_by (r : bres V) : list V :=
    match r with BGot v => [v] | _ => [] end.

  (** Accepted / delivered values of a history (newest event first), oldest first. *)
  Fixpoint accepted (h : list (event (bop V) (bres V))) : list V :=
    match h with
    | [] => []
    | ECall _ _ _ :: h' => accepted h'
    | EDone _ op r :: h' => accepted h' ++ accepted_by op r
    end.
  Fixpoint delivered (h : list (event (bop V) (bres V))) : list V :=
    match h with
    | [] => []
    | ECall _ _ _ :: h' => delivered h'
    | EDone _ _ r :: h' => delivered h' ++ delivered_by r
    end.

  (** How many operations were ended by an interruption. *)
  Definition intr_of (r : bres V) : nat := match r with BThrowIntr => 1 | _ => 0 end.
  Fixpoint interrupted (h : list (event (bop V) (bres V))) : nat :=
    match h with
    | [] => 0
    | ECall _ _ _ :: h' => interrupted h'
    | EDone _ _ r :: h' => intr_of r + interrupted h'
    end.

  (** The elements a queue object stores, oldest first: the ring cells from
      [out_] up to, not including, [in_]. *)
  Definition ring_count (s : bq V) : nat := (q_in s + cap s - q_out s) mod cap s.
  Definition ring_next (c i : nat) : nat := if S i =? c then 0 else S i.
  Fixpoint ring_from (n i : nat) (s : bq V) : list V :=
    match n with
    | 0 => []
    | S n' =>
        match nth_error (data s) i with
        | Some v => v :: ring_from n' (ring_next (cap s) i) s
        | None => []
        end
    end.
  Definition stored (s : bq V) : list V := ring_from (ring_count s) (q_out s) s.

End Spec.

(** close() has taken effect in the history. *)
Definition closed_in {V} (h : list (event (bop V) (bres V))) : Prop :=
  exists t r, In (EDone t BClose r) h.
