(** * Theorems about thread objects (C99 - C103) *)
From Verif Require Import TH_Spec TH_Proofs TH_Tree TH_More TH_Moves.
Set Implicit Arguments.

(** C99: a thread is represented by at most one object, and by one object exactly from its creation until it is joined or detached. *)
Theorem thread_represented_once v3 main nb s :
  reach v3 main nb s -> NoDup (represented s) /\ forall j, In j (represented s) <-> started (hist s) j /\ ~ released (hist s) j.
Proof. intros Hr. split; [exact (rep_nodup Hr)|intros j; exact (rep_iff j Hr)]. Qed.
Print Assumptions thread_represented_once.

(** C99: a thread is joined or detached at most once, after its creation; ids are not reused. *)
Theorem thread_released_once v3 main nb s h2 e h1 t j :
  reach v3 main nb s -> hist s = h2 ++ e :: h1 ->
  (e = EJoined t j \/ e = EDetached t j -> started h1 j /\ ~ released h1 j /\ ~ released h2 j) /\ (e = EStart t j -> ~ started h1 j).
Proof.
  intros Hr E. split; [intros He; exact (@rel_once _ _ _ _ _ _ _ _ _ Hr E He)|]. intros ->. pose proof (i_hist (Inv_reach Hr)) as HG. rewrite E in HG.
  apply hgood_split in HG as (_ & HG). intros (u & Hu). exact (HG u Hu).
Qed.
Print Assumptions thread_released_once.

(** C99: join returns only when the thread has ended, and a thread that has ended does nothing any more. *)
Theorem thread_join_after_end v3 main nb s h2 e h1 t j :
  reach v3 main nb s -> hist s = h2 ++ e :: h1 -> ~ In (EEnd (actor e)) h1 /\ (e = EJoined t j -> In (EEnd j) h1).
Proof.
  intros Hr E. pose proof (i_hist (Inv_reach Hr)) as HG. rewrite E in HG. apply hgood_split in HG as (HA & HG). split; [exact HA|]. intros ->. exact HG.
Qed.
Print Assumptions thread_join_after_end.

(** C99: what construction, moves and swap do to the objects of the calling thread [t], whose function goes from [x] to [y]: constructing a thread, ... *)
Theorem thread_construction v3 s t s' x y z k args b ct r :
  step v3 s t Go = Some s' -> nth_error (ths s) t = Some x -> nth_error (ths s') t = Some y -> nth_error (ths s') (length (ths s)) = Some z ->
  cont x = Do (New k args b ct) :: r -> NoDup args -> (forall i, In i args -> exists k h, nth_error (loc x) i = Some (OThr k h)) ->
  cont z = map Do b /\ (forall p i, nth_error args p = Some i -> hof (loc z) p = hof (loc x) i) /\ hof (loc y) (length (loc x)) = Some (length (ths s)) /\
  (forall m, m < length (loc x) -> hof (loc y) m = if in_dec Nat.eq_dec m args then None else hof (loc x) m).
Proof. exact (@new_spec v3 s t s' x y z k args b ct r). Qed.
Print Assumptions thread_construction.

(** ... move construction, ... *)
Theorem thread_move_construction v3 s t ch s' x y k i k' h r :
  step v3 s t ch = Some s' -> nth_error (ths s) t = Some x -> nth_error (ths s') t = Some y ->
  cont x = Do (MoveNew k i) :: r -> nth_error (loc x) i = Some (OThr k' h) -> k' = KPlain \/ k' = k ->
  hof (loc y) i = None /\ hof (loc y) (length (loc x)) = h /\ forall m, m <> i -> m < length (loc x) -> hof (loc y) m = hof (loc x) m.
Proof. exact (@move_new v3 s t ch s' x y k i k' h r). Qed.
Print Assumptions thread_move_construction.

(** ... swap, ... *)
Theorem thread_swap v3 s t ch s' x y k i j h h' r :
  step v3 s t ch = Some s' -> nth_error (ths s) t = Some x -> nth_error (ths s') t = Some y ->
  cont x = Do (Swap i j) :: r -> nth_error (loc x) i = Some (OThr k h) -> nth_error (loc x) j = Some (OThr k h') ->
  hof (loc y) i = h' /\ hof (loc y) j = h /\ forall m, m <> i -> m <> j -> hof (loc y) m = hof (loc x) m.
Proof. exact (@swap_spec v3 s t ch s' x y k i j h h' r). Qed.
Print Assumptions thread_swap.

(** ... and move assignment ([AAssign]: its last part, after the functor of a scoped_thread has been applied to the object assigned to). *)
Theorem thread_move_assignment v3 s t ch s' x y f k k' i j h h' hd r :
  step v3 s t ch = Some s' -> why s' = None -> nth_error (ths s) t = Some x -> nth_error (ths s') t = Some y ->
  cont x = AAssign f i j hd :: r -> i <> j -> nth_error (loc x) i = Some (OThr k h) -> nth_error (loc x) j = Some (OThr k' h') ->
  hof (loc y) i = h' /\ hof (loc y) j = None /\ forall m, m <> i -> m <> j -> hof (loc y) m = hof (loc x) m.
Proof. exact (@assign_spec v3 s t ch s' x y f k k' i j h h' hd r). Qed.
Print Assumptions thread_move_assignment.

(** C100: when the destructor of a scoped_thread or thread_guard returns, or a move assignment to a scoped_thread, the thread that the object represented has ended
    if the functor joins; with interrupt_and_join_if_joinable its interruption was requested; with a detaching functor it is detached. *)
Theorem scoped_thread_waits v3 main nb s h2 e h1 t f j :
  reach v3 main nb s -> hist s = h2 ++ e :: h1 -> e = EDestroyed t f (Some j) \/ e = EAssigned t (Some f) (Some j) ->
  (joins f -> In (EEnd j) h1) /\ (f = FIntJoin -> exists u, In (ERequest u j) h1) /\ (f = FDetach \/ f = FDetachIf -> exists u, In (EDetached u j) h1).
Proof.
  intros Hr E He. pose proof (i_hist (Inv_reach Hr)) as HG. rewrite E in HG. apply hgood_split in HG as (_ & HG).
  pose proof (proj2 (sh2_reach Hr)) as H2. rewrite E in H2. apply hg2_split in H2. split; [|split].
  - destruct He as [ -> | -> ]; intros Hj; exact (HG Hj j eq_refl).
  - destruct He as [ -> | -> ]; intros ->; exact (H2 j eq_refl).
  - destruct He as [ -> | -> ]; intros [ -> | -> ]; exact (H2 j eq_refl).
Qed.
Print Assumptions scoped_thread_waits.

(** C100: interruption of a thread is disabled exactly while a destructor of a scoped_thread or thread_guard runs in it or a disable_interruption object is in scope
    (and always in main): the destructors leave it as they found it. *)
Theorem scoped_thread_interruption v3 main nb s t x :
  reach v3 main nb s -> nth_error (ths s) t = Some x ->
  (en x = false <-> t = 0 \/ in_dtor t (hist s) = true \/ exists w, In (ODis w) (loc x)).
Proof. exact (@en_iff v3 main nb s t x). Qed.
Print Assumptions scoped_thread_interruption.

(** C100: thread_interrupted is never thrown in such a destructor, so it never calls std::terminate for that. *)
Theorem scoped_thread_not_interrupted v3 main nb s :
  reach v3 main nb s -> why s <> Some RIntr /\ forall h2 h1 t, hist s = h2 ++ EIntr t :: h1 -> in_dtor t h1 = false.
Proof.
  intros Hr. split; [exact (proj1 (why_reach Hr))|]. intros h2 h1 t E. pose proof (i_hist (Inv_reach Hr)) as HG. rewrite E in HG.
  apply hgood_split in HG as (_ & HG). exact HG.
Qed.
Print Assumptions scoped_thread_not_interrupted.

(** C101: in a program whose threads all belong to scoped_threads that join, a thread ends only after all the threads that it created, and those that they created,
    and so on; when main has ended, so have all threads. *)
Theorem scoped_threads_structured v3 main nb s t :
  Forall (every structured) main -> reach v3 main nb s -> In (EEnd t) (hist s) ->
  (forall j, descendant (hist s) t j -> In (EEnd j) (hist s)) /\ (t = 0 -> forall j, started (hist s) j -> In (EEnd j) (hist s)).
Proof.
  intros Hm Hr Ht. split; [exact (@structured_end _ _ _ _ _ Hm Hr Ht)|]. intros -> j Hj. apply (@structured_end _ _ _ _ _ Hm Hr Ht).
  apply (all_descend Hr). apply (i_start (Inv_reach Hr)). exact Hj.
Qed.
Print Assumptions scoped_threads_structured.

(** C101: such a program, which handles failures of thread creation, never terminates abnormally. *)
Theorem scoped_threads_safe v3 main nb s :
  Forall (every structured) main -> Forall (every handles_failure) main -> reach v3 main nb s -> why s = None.
Proof. exact (@structured_why v3 main nb s). Qed.
Print Assumptions scoped_threads_safe.

(** C102: all runs of a program are finite; where a run cannot go on, the program has been terminated or all threads have ended, if thread objects are
    handed over only to new threads: then there is no deadlock, and no thread joins itself. *)
Theorem thread_programs_finish v3 main nb :
  (exists N, forall n s, steps v3 (init main nb) n s -> n <= N) /\
  (forall s, Forall (every no_exchange) main -> reach v3 main nb s ->
     (stuck v3 s -> why s <> None \/ forall t, t < length (ths s) -> In (EEnd t) (hist s)) /\ (forall u, ~ In (EDeadlock u) (hist s))).
Proof.
  split.
  - exists (S (size (ths (init main nb)))). intros n s Hs. exact (@steps_size _ main nb _ _ _ (reach_init _ _ _) Hs).
  - intros s Hm Hr. split; [|exact (proj2 (nx_self Hm Hr))]. intros Hst. destruct (why s) eqn:Ew; [left; discriminate|right]. exact (@nx_stuck _ _ _ _ Hm Hr Hst Ew).
Qed.
Print Assumptions thread_programs_finish.

(** C103: why the program is terminated: a joinable thread is destroyed or assigned to, which happens only since version 3 (a thread object then still represents
    a thread that was neither joined nor detached); a destructor joins its own thread, which throws; thread creation fails, or a join of the thread itself, and
    that is not handled. *)
Theorem thread_terminate_reasons v3 main nb s w :
  reach v3 main nb s -> why s = Some w ->
  (w = RJoinable /\ v3 = true /\ exists j, started (hist s) j /\ ~ released (hist s) j) \/
  (w = RSelf /\ (exists t, In (EDeadlock t) (hist s)) /\ ~ Forall (every no_exchange) main) \/
  (w = RUncaught /\ exists t, In (EFail t) (hist s) \/ In (EDeadlock t) (hist s)).
Proof.
  intros Hr Ew. pose proof (why_reach Hr) as (W1 & _). destruct w; [left|right; left|right; right|congruence].
  - destruct (why_joinable Hr Ew) as (Hv & j & Hj). split; [reflexivity|]. split; [exact Hv|]. exists j. exact (proj1 (rep_iff j Hr) Hj).
  - split; [reflexivity|]. split; [exact (why_self Hr Ew)|]. intros Hm. exact (proj1 (nx_self Hm Hr) Ew).
  - split; [reflexivity|]. exact (why_uncaught Hr Ew).
Qed.
Print Assumptions thread_terminate_reasons.

(** C103: since version 3 no thread is detached unless the program asks for it. *)
Theorem thread_no_silent_detach v3 main nb s :
  Forall (every (fun c => match c with Detach _ => False | Guard f _ => joins f | New (KScoped f) _ _ _ | MoveNew (KScoped f) _ => joins f | _ => True end)) main ->
  v3 = true -> reach v3 main nb s -> forall u j, ~ In (EDetached u j) (hist s).
Proof.
  intros Hm Hv Hr. refine (@no_detach true v3 main nb s _ (or_intror Hv) Hr). eapply Forall_impl; [|exact Hm]. intros c. apply every_impl.
  intros []; cbn; auto; try destruct k; cbn; auto.
Qed.
Print Assumptions thread_no_silent_detach.

(** ** The hypotheses are met *)
Definition progA : list cmd := [New (KScoped FJoin) [] [New (KScoped FIntJoin) [] [Point] true] true; Guard FJoin 0].
Definition progD : list cmd :=
  [New KPlain [] [MoveNew KPlain 0; Exchange 0 1; Join 0 false true] true; New KPlain [] [MoveNew KPlain 0; Exchange 0 0; Join 0 false true] true; Exchange 0 0; Exchange 1 1].
Definition progM : list cmd := [New KPlain [] [] true; MoveNew KPlain 0; Swap 0 1; New KPlain [] [] true; MoveAssign 1 2; New KPlain [1] [Join 0 false true] true; Join 3 false true; Join 0 false true].
Definition gos (l : list nat) : list (nat * choice) := map (fun t => (t, Go)) l.

(** C100, C101: a scoped_thread with a nested one that is interrupted, and a thread_guard. *)
Example structured_example :
  Forall (every structured) progA /\ Forall (every handles_failure) progA /\
  exists s, reach true progA 0 s /\ hist s =
    [EEnd 0; EDestroyed 0 FJoin None; EDtor 0 FJoin None; EDestroyed 0 FJoin (Some 1); EJoined 0 1; EEnd 1; EDestroyed 1 FIntJoin (Some 2);
     EJoined 1 2; EEnd 2; EIntr 2; ERequest 1 2; EDtor 1 FIntJoin (Some 2); EStart 1 2; EDtor 0 FJoin (Some 1); EStart 0 1].
Proof.
  split; [repeat constructor|]. split; [repeat constructor|].
  eexists. split.
  - apply reach_run with (s := init progA 0) (ls := gos [0; 0; 0; 0; 0; 0; 1; 1; 1; 1; 1; 2; 2; 1; 1; 1; 0; 0; 0; 0; 0; 0]); [constructor|]. vm_compute. reflexivity.
  - reflexivity.
Qed.
(** C99: moves, swap, assignment and an argument for a new thread. *)
Example moves_example :
  Forall (every no_exchange) progM /\ exists s, reach true progM 0 s /\ hist s =
    [EEnd 0; EJoined 0 1; EJoined 0 3; EEnd 3; EJoined 3 2; EEnd 2; EEnd 1; EStart 0 3; EAssigned 0 None None; EStart 0 2; EStart 0 1].
Proof.
  split; [repeat constructor|]. eexists. split.
  - apply reach_run with (s := init progM 0) (ls := gos [0; 0; 0; 0; 0; 0; 0; 0; 0; 1; 1; 2; 2; 3; 3; 3; 3; 3; 0; 0; 0; 0; 0; 0; 0; 0; 0]); [constructor|]. vm_compute. reflexivity.
  - reflexivity.
Qed.
(** C102: the condition is needed: through shared variables two threads get to join each other. *)
Example exchange_deadlock :
  exists s, reach true progD 2 s /\ stuck true s /\ why s = None /\ ~ In (EEnd 1) (hist s) /\ ~ In (EEnd 2) (hist s).
Proof.
  eexists. split.
  - apply reach_run with (s := init progD 2) (ls := gos [0; 0; 0; 0; 0; 0; 0; 0; 1; 1; 1; 1; 2; 2; 2; 2]); [constructor|]. vm_compute. reflexivity.
  - split; [intros [|[|[|t]]] ch; [reflexivity|destruct ch; reflexivity|destruct ch; reflexivity|unfold step; cbn; now rewrite nth_error_nil || (destruct t; reflexivity)]|].
    split; [reflexivity|]. split; cbn; intuition discriminate.
Qed.
(** C103: each reason occurs: a joinable thread is destroyed; a failure of thread creation is not handled; a scoped_thread is destroyed by its own thread. *)
Example reasons_example :
  (exists s, reach true [New KPlain [] [] true] 0 s /\ why s = Some RJoinable) /\
  (exists s, reach true [New KPlain [] [] false] 0 s /\ why s = Some RUncaught) /\
  (exists s, reach true [New KPlain [] [MoveNew KPlain 0; Exchange 0 0; MoveNew (KScoped FJoin) 0] true; Exchange 0 0] 1 s /\ why s = Some RSelf).
Proof.
  split; [|split]; eexists; split.
  - apply reach_run with (s := init [New KPlain [] [] true] 0) (ls := gos [0; 0; 0]); [constructor|]. vm_compute. reflexivity.
  - reflexivity.
  - apply reach_run with (s := init [New KPlain [] [] false] 0) (ls := [(0, Fail); (0, Go)]); [constructor|]. vm_compute. reflexivity.
  - reflexivity.
  - apply reach_run with (s := init [New KPlain [] [MoveNew KPlain 0; Exchange 0 0; MoveNew (KScoped FJoin) 0] true; Exchange 0 0] 1) (ls := gos [0; 0; 1; 1; 1; 1; 1; 1; 1]); [constructor|]. vm_compute. reflexivity.
  - reflexivity.
Qed.
(** A finding: move assignment to a scoped_thread is an interruption point, where it leaves both objects as they were; the destructors are none. *)
Example assignment_interrupted :
  exists s, reach true [New (KScoped FJoin) [] [New (KScoped FJoin) [] [] true; New (KScoped FJoin) [] [] true; MoveAssign 0 1] true; Interrupt 0] 0 s /\ hist s = [EIntr 1; EStart 1 3; EStart 1 2; ERequest 0 1; EStart 0 1].
Proof.
  eexists. split.
  - apply reach_run with (s := init [New (KScoped FJoin) [] [New (KScoped FJoin) [] [] true; New (KScoped FJoin) [] [] true; MoveAssign 0 1] true; Interrupt 0] 0) (ls := gos [0; 0; 1; 1; 1; 1; 1]); [constructor|]. vm_compute. reflexivity.
  - reflexivity.
Qed.
