(** * Model of the queues when operations on elements throw

    Source: include/boost/thread/concurrent_queues/sync_queue.hpp 79-102, sync_deque.hpp (the same under other names),
    sync_priority_queue.hpp 39-89 and 171-276, sync_bounded_queue.hpp 102-125, 156-228, 408-429, 466-482 and 575-589,
    detail/sync_queue_base.hpp 96-103.

    A copy or move of an element, a comparison and an allocation may throw at any place.  What the C++ standard leaves open is left open here: what a
    move or an assignment that throws leaves in its source and target, and what a heap algorithm whose comparison throws leaves in the range.
    push_back of the container has no effect if it throws (the C++ standard demands it of deques, and of vectors of elements that can be copied).
    The mutex is held all the time: each function is one step.  [V]: the type of elements. *)
From Coq Require Export List Arith Lia Bool Permutation.
Export ListNotations.
Set Implicit Arguments.

Section QX.
  Variable V : Type.

  (** A move construction or move assignment from an object: whether it throws, and what it leaves in the source *)
  Record transfer := Transfer { throws : bool; left : V }.

  (** What a call comes to: an exception, or the element given to the caller (pulls), or nothing (pushes) *)
  Inductive outcome := Threw | Gave (v : V) | Took.

  (** ** sync_queue and sync_deque: the elements, front first *)
  (** push 92-102; [t]: whether push_back throws *)
  Definition sq_push (t : bool) (v : V) (q : list V) : list V * outcome :=
    if t then (q, Threw) else (q ++ [v], Took).
  (** pull(elem, lk) 79-83.  [None]: front() of an empty queue *)
  Definition sq_pull_ref (t : transfer) (q : list V) : option (list V * outcome) :=
    match q with
    | [] => None
    | v :: q' => Some (if throws t then (left t :: q', Threw) else (q', Gave v))
    end.
  (** pull(lk) 84-89: [t]: the construction of e; [r]: the construction of the value returned *)
  Definition sq_pull_val (t r : transfer) (q : list V) : option (list V * outcome) :=
    match q with
    | [] => None
    | v :: q' => Some (if throws t then (left t :: q', Threw) else if throws r then (q', Threw) else (q', Gave v))
    end.

  (** ** sync_bounded_queue 91-100 *)
  Record bq := BQ { data : nat -> V; in_ : nat; out_ : nat; capacity_ : nat }.
  (** 102-105 *)
  Definition inc (q : bq) (i : nat) : nat := (i + 1) mod capacity_ q.
  Definition set (d : nat -> V) (i : nat) (v : V) : nat -> V := fun j => if j =? i then v else d j.
  (** push_at 217-227; [t]: whether the assignment throws, and what it leaves in data_[in_] *)
  Definition bq_push (t : transfer) (v : V) (q : bq) : bq * outcome :=
    if throws t then (BQ (set (data q) (in_ q) (left t)) (in_ q) (out_ q) (capacity_ q), Threw)
    else (BQ (set (data q) (in_ q) v) (inc q (in_ q)) (out_ q) (capacity_ q), Took).
  (** pull(elem, lk), pull_front(elem, lk) 176-181, 197-202; after a move the source is still in the array, with an unspecified value *)
  Definition bq_pull_ref (t : transfer) (q : bq) : bq * outcome :=
    let d := set (data q) (out_ q) (left t) in
    if throws t then (BQ d (in_ q) (out_ q) (capacity_ q), Threw)
    else (BQ d (in_ q) (inc q (out_ q)) (capacity_ q), Gave (data q (out_ q))).
  (** pull(lk), pull_front(lk) 182-188, 203-209 *)
  Definition bq_pull_val (t r : transfer) (q : bq) : bq * outcome :=
    let d := set (data q) (out_ q) (left t) in
    if throws t then (BQ d (in_ q) (out_ q) (capacity_ q), Threw)
    else (BQ d (in_ q) (inc q (out_ q)) (capacity_ q), if throws r then Threw else Gave (data q (out_ q))).
  (** ptr_pull 189-195: make_shared allocates ([a]: and throws), then moves *)
  Definition bq_ptr_pull (a : bool) (t : transfer) (q : bq) : bq * outcome :=
    if a then (q, Threw) else bq_pull_ref t q.

  (** ** sync_priority_queue: the array *)
  (** push 62-71: [t]: whether push_back throws; [c]: what push_heap leaves if a comparison or move in it throws; [push_heap]: what it does otherwise *)
  Definition pq_push (push_heap : list V -> list V) (t : bool) (c : option (list V)) (v : V) (q : list V) : list V * outcome :=
    if t then (q, Threw)
    else match c with
         | Some q' => (q', Threw)
         | None => (push_heap (q ++ [v]), Took)
         end.
  (** pull 78-83 with pop 73-77: [t]: the construction of result; [c]: what pop_heap leaves if it throws; [pop_heap]: what it does otherwise, the greatest
      element at the end; [r]: the construction of the value returned *)
  Definition pq_pull (pop_heap : list V -> list V) (t : transfer) (c : option (list V)) (r : transfer) (q : list V) : option (list V * outcome) :=
    match q with
    | [] => None
    | v :: q' =>
        Some (if throws t then (left t :: q', Threw)
              else match c with
                   | Some q1 => (q1, Threw)
                   | None => (removelast (pop_heap (left t :: q')), if throws r then Threw else Gave v)
                   end)
    end.
  (** pull(lk, elem) 258-267: elem = data_.pull(); [a]: whether the assignment throws *)
  Definition pq_pull_ref (pop_heap : list V -> list V) (t : transfer) (c : option (list V)) (r : transfer) (a : bool) (q : list V) : option (list V * outcome) :=
    match pq_pull pop_heap t c r q with
    | Some (q', Gave v) => Some (q', if a then Threw else Gave v)
    | o => o
    end.

  (** ** Waiting calls
      Calls of several threads.  The mutex is released only in wait; notify_one is called after it is released.  Left out: close, interruption, timeouts. *)
  Inductive event := EPushed (t : nat) (v : V) | EPulled (t : nat) (v : V) | EPushThrew (t : nat) | EPullThrew (t : nat).

  (** *** sync_bounded_queue
      [sleepE], [sleepF]: threads asleep in not_empty_ and not_full_; [wokenE], [wokenF]: threads woken there that have not got the mutex yet;
      [notifyE], [notifyF]: threads that are about to call notify_one; [waiting_empty], [waiting_full]: the counters 94-95 *)
  Record bsys := BSys { items : list V; waiting_empty : nat; waiting_full : nat; sleepE : list nat; sleepF : list nat;
                        wokenE : list nat; wokenF : list nat; notifyE : list nat; notifyF : list nat; hist : list event }.
  Definition bsys0 : bsys := BSys [] 0 0 [] [] [] [] [] [] [].
  Definition idle (s : bsys) (t : nat) : Prop :=
    ~ In t (sleepE s ++ sleepF s ++ wokenE s ++ wokenF s ++ notifyE s ++ notifyF s).
  (** thread [t] runs with the mutex: it has just called ([l' = l]), or it is one of the woken threads [l], which leaves *)
  Inductive enters (s : bsys) (t : nat) (l l' : list nat) : Prop :=
  | calls : idle s t -> l' = l -> enters s t l l'
  | wakes l1 l2 : l = l1 ++ t :: l2 -> l' = l1 ++ l2 -> enters s t l l'.

  (** [cap]: max_elems *)
  Inductive bstep (cap : nat) (s : bsys) : bsys -> Prop :=
  (* wait_until_not_empty 408-418: the queue is empty *)
  | b_pull_wait t w : enters s t (wokenE s) w -> items s = [] ->
      bstep cap s (BSys (items s) (S (waiting_empty s)) (waiting_full s) (t :: sleepE s) (sleepF s) w (wokenF s) (notifyE s) (notifyF s) (hist s))
  (* pull_front 197-202, then notify_not_full_if_needed 165-173; also pull_front 203-209, whether or not the value returned is constructed *)
  | b_pull t w v q : enters s t (wokenE s) w -> items s = v :: q ->
      bstep cap s (BSys q (waiting_empty s) (pred (waiting_full s)) (sleepE s) (sleepF s) w (wokenF s) (notifyE s)
                        (if 0 <? waiting_full s then t :: notifyF s else notifyF s) (EPulled t v :: hist s))
  (* the assignment throws *)
  | b_pull_throws t w v q l : enters s t (wokenE s) w -> items s = v :: q ->
      bstep cap s (BSys (l :: q) (waiting_empty s) (waiting_full s) (sleepE s) (sleepF s) w (wokenF s) (notifyE s) (notifyF s) (EPullThrew t :: hist s))
  (* wait_until_not_full 575-589: the queue is full *)
  | b_push_wait t w : enters s t (wokenF s) w -> length (items s) = cap ->
      bstep cap s (BSys (items s) (waiting_empty s) (S (waiting_full s)) (sleepE s) (t :: sleepF s) (wokenE s) w (notifyE s) (notifyF s) (hist s))
  (* push_at 217-227 with set_in 211-215, then notify_not_empty_if_needed 156-164 *)
  | b_push t w v : enters s t (wokenF s) w -> length (items s) < cap ->
      bstep cap s (BSys (items s ++ [v]) (pred (waiting_empty s)) (waiting_full s) (sleepE s) (sleepF s) (wokenE s) w
                        (if 0 <? waiting_empty s then t :: notifyE s else notifyE s) (notifyF s) (EPushed t v :: hist s))
  | b_push_throws t w : enters s t (wokenF s) w -> length (items s) < cap ->
      bstep cap s (BSys (items s) (waiting_empty s) (waiting_full s) (sleepE s) (sleepF s) (wokenE s) w (notifyE s) (notifyF s) (EPushThrew t :: hist s))
  (* not_empty_.notify_one(), not_full_.notify_one(): a thread that sleeps is woken, if there is any *)
  | b_notifyE t n1 n2 u l1 l2 : notifyE s = n1 ++ t :: n2 -> sleepE s = l1 ++ u :: l2 ->
      bstep cap s (BSys (items s) (waiting_empty s) (waiting_full s) (l1 ++ l2) (sleepF s) (u :: wokenE s) (wokenF s) (n1 ++ n2) (notifyF s) (hist s))
  | b_notifyE_none t n1 n2 : notifyE s = n1 ++ t :: n2 -> sleepE s = [] ->
      bstep cap s (BSys (items s) (waiting_empty s) (waiting_full s) (sleepE s) (sleepF s) (wokenE s) (wokenF s) (n1 ++ n2) (notifyF s) (hist s))
  | b_notifyF t n1 n2 u l1 l2 : notifyF s = n1 ++ t :: n2 -> sleepF s = l1 ++ u :: l2 ->
      bstep cap s (BSys (items s) (waiting_empty s) (waiting_full s) (sleepE s) (l1 ++ l2) (wokenE s) (u :: wokenF s) (notifyE s) (n1 ++ n2) (hist s))
  | b_notifyF_none t n1 n2 : notifyF s = n1 ++ t :: n2 -> sleepF s = [] ->
      bstep cap s (BSys (items s) (waiting_empty s) (waiting_full s) (sleepE s) (sleepF s) (wokenE s) (wokenF s) (notifyE s) (n1 ++ n2) (hist s))
  (* spurious wake-ups *)
  | b_spuriousE u l1 l2 : sleepE s = l1 ++ u :: l2 ->
      bstep cap s (BSys (items s) (waiting_empty s) (waiting_full s) (l1 ++ l2) (sleepF s) (u :: wokenE s) (wokenF s) (notifyE s) (notifyF s) (hist s))
  | b_spuriousF u l1 l2 : sleepF s = l1 ++ u :: l2 ->
      bstep cap s (BSys (items s) (waiting_empty s) (waiting_full s) (sleepE s) (l1 ++ l2) (wokenE s) (u :: wokenF s) (notifyE s) (notifyF s) (hist s)).
  Inductive breach (cap : nat) : bsys -> Prop :=
  | b_init : breach cap bsys0
  | b_next s s' : breach cap s -> bstep cap s s' -> breach cap s'.

  (** *** sync_queue, sync_deque, sync_priority_queue: cond_, notify_all with the mutex held (sync_queue_base.hpp 96-103)
      [sleep], [woken]: as above.  [pushes q q' o], [pulls q q' o]: a push or pull may turn the elements [q] into [q'] and come to [o]. *)
  Record ssys := SSys { elems : list V; sleep : list nat; woken : list nat }.
  Definition ssys0 : ssys := SSys [] [] [].
  Definition senters (s : ssys) (t : nat) (l' : list nat) : Prop :=
    (~ In t (sleep s ++ woken s) /\ l' = woken s) \/ (exists l1 l2, woken s = l1 ++ t :: l2 /\ l' = l1 ++ l2).
  Section Calls.
    Variables pushes pulls : list V -> list V -> outcome -> Prop.
    Inductive sstep (s : ssys) : ssys -> Prop :=
    | s_push t q : ~ In t (sleep s ++ woken s) -> pushes (elems s) q Took -> sstep s (SSys q [] (sleep s ++ woken s))
    | s_push_throws t q : ~ In t (sleep s ++ woken s) -> pushes (elems s) q Threw -> sstep s (SSys q (sleep s) (woken s))
    (* wait_until_not_empty_or_closed, sync_queue_base.hpp 189-194 *)
    | s_pull_wait t w : senters s t w -> elems s = [] -> sstep s (SSys (elems s) (t :: sleep s) w)
    | s_pull t w q o : senters s t w -> elems s <> [] -> pulls (elems s) q o -> sstep s (SSys q (sleep s) w)
    | s_spurious u l1 l2 : sleep s = l1 ++ u :: l2 -> sstep s (SSys (elems s) (l1 ++ l2) (u :: woken s)).
    Inductive sreach : ssys -> Prop :=
    | s_init : sreach ssys0
    | s_next s s' : sreach s -> sstep s s' -> sreach s'.
  End Calls.
  (** sync_queue, sync_deque *)
  Definition sq_pushes (q q' : list V) (o : outcome) : Prop := exists t v, sq_push t v q = (q', o).
  Definition sq_pulls (q q' : list V) (o : outcome) : Prop :=
    (exists t, sq_pull_ref t q = Some (q', o)) \/ (exists t r, sq_pull_val t r q = Some (q', o)).
  (** sync_priority_queue; the heap algorithms do not change the number of elements.  [cmp]: comparisons (and the moves in the heap algorithms) may throw *)
  Definition pq_pushes (cmp : bool) (q q' : list V) (o : outcome) : Prop :=
    exists push_heap t c v, pq_push push_heap t c v q = (q', o) /\
      Permutation (push_heap (q ++ [v])) (q ++ [v]) /\ (forall l, c = Some l -> cmp = true /\ length l = S (length q)).
  Definition pq_pulls (cmp : bool) (q q' : list V) (o : outcome) : Prop :=
    exists pop_heap t c r, (pq_pull pop_heap t c r q = Some (q', o) \/ exists a, pq_pull_ref pop_heap t c r a q = Some (q', o)) /\
      (forall x l, exists l', pop_heap (x :: l) = l' ++ [x] /\ Permutation l' l) /\ (forall l, c = Some l -> cmp = true /\ length l = length q).
End QX.
