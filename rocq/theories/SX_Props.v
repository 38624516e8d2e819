(** * C59: serial_executor *)
From Verif Require Import MonitorLemmas SX_Model SX_Spec SX_Proofs.
Set Implicit Arguments.

Definition any_call (_ : xop) : bool := true.
Definition no_user_try (op : xop) : bool := match op with OTry => false | _ => true end.

(** C59, for all schedules, whatever the users call.  A closure is begun at most once, only if it was accepted, and ended only after it was begun.
    Once no thread can take a step, the worker thread having been started and the underlying executor having at least one thread, every accepted closure has run exactly once,
    and no user's call, the destructor included, is left waiting.  A submission begun after close has returned, or any that completes after it, is refused. *)
Theorem serial_once : forall allowed n c, reachable (sxprog allowed) n sx0 tt c ->
  (forall i, times (Beg i) (log (sh c)) <= 1 /\ times (End i) (log (sh c)) <= times (Beg i) (log (sh c)) /\ (0 < times (Beg i) (log (sh c)) -> i < accepted (hist c))) /\
  (quiescent c -> wstart (sh c) = true -> (exists t l cv k, nth_error (thr c) t = Some (Asleep l OExec cv k)) ->
     (forall i, i < accepted (hist c) -> times (Beg i) (log (sh c)) = 1 /\ times (End i) (log (sh c)) = 1) /\
     forall t l op cv k, nth_error (thr c) t = Some (Asleep l op cv k) -> op = OExec \/ op = OWorker /\ clos (sh c) = false) /\
  (forall h1 t r h0, hist c = h1 ++ EDone t OSubmit r :: h0 -> forall u op', In (EDone u op' ROk) h0 -> op' = OClose \/ op' = ODestroy -> r = RClosed).
Proof.
  intros allowed n c Hr. split; [|split; [apply (rest Hr)|intros h1 t r h0; eapply refused; eauto]]. intros i. pose proof (Inv_reachable Hr) as HI. pose proof (v_one HI i) as A. pose proof (v_run HI i) as B. rewrite <- (v_acc HI).
  destruct (Nat.ltb_spec i (nsub (sh c))); cbn in A; lia.
Qed.
Print Assumptions serial_once.

(** C59: if users do not call try_executing_one or reschedule_until themselves, closures run one at a time in the order of submission: at every moment, closures 0 .. m-1
    have run one after the other, and at most closure m is running.  When the destructor has returned, all accepted closures have run. *)
Theorem serial_order_partial : forall n c, reachable (sxprog no_user_try) n sx0 tt c ->
  (exists m, log (sh c) = serial m \/ log (sh c) = Beg m :: serial m) /\
  (forall t, In (EDone t ODestroy ROk) (hist c) -> log (sh c) = serial (accepted (hist c))).
Proof.
  intros n c Hr. split; [|intros t; apply (destroyed _ (eq_refl : no_user_try OTry = false) Hr)].
  destruct (Ord_reachable (eq_refl : no_user_try OTry = false) Hr) as [_ _ (ph & m & H1 & _)].
  destruct ph; cbn [sph] in H1; destruct H1 as (_ & _ & _ & E); [exists m|exists m|exists m|exists m|exists (S m)]; auto.
Qed.
Print Assumptions serial_order_partial.

Definition cl_ (t : nat) (op : xop) : label xop nat := LCall nat t op.
Definition r_ (t : nat) : label xop nat := LRun xop t [] 0.
Ltac witness P n ls := let c := fresh "c" in let E := fresh "E" in
  destruct (run P (init xk xop xres xcv n sx0 tt) ls) as [c|] eqn:E; [|vm_compute in E; discriminate]; exists c; split; [exists ls; exact E|]; vm_compute in E; injection E as <-.

(** C59 in full is false: try_executing_one is public, and called while the worker has given a closure to the underlying executor, it gives the executor another one:
    the two run at the same time, here even begun in the opposite order. *)
Theorem serial_order_refuted : exists c, reachable (sxprog any_call) 5 sx0 tt c /\ accepted (hist c) = 2 /\ log (sh c) = [Beg 0; Beg 1].
Proof.
  witness (sxprog any_call) 5 [cl_ 0 OSubmit; r_ 0; cl_ 0 OSubmit; r_ 0; cl_ 1 OWorker; r_ 1; r_ 1; r_ 1; r_ 1; cl_ 0 OTry; r_ 0; r_ 0; r_ 0; cl_ 2 OExec; cl_ 3 OExec; LRun xop 2 [] 1; r_ 3].
  split; reflexivity.
Qed.
Print Assumptions serial_order_refuted.

(** non-vacuity: three closures, the third submitted while the first runs, an underlying executor with two threads, then the destructor *)
Example serial_example : exists c, reachable (sxprog no_user_try) 4 sx0 tt c /\ quiescent c /\ wstart (sh c) = true /\ (exists t l cv k, nth_error (thr c) t = Some (Asleep l OExec cv k)) /\
  accepted (hist c) = 3 /\ In (EDone 0 ODestroy ROk) (hist c) /\ log (sh c) = [End 2; Beg 2; End 1; Beg 1; End 0; Beg 0].
Proof.
  witness (sxprog no_user_try) 4 [cl_ 1 OWorker; r_ 1; r_ 1; r_ 1; cl_ 2 OExec; r_ 2; cl_ 3 OExec; r_ 3; cl_ 0 OSubmit; r_ 0; cl_ 0 OSubmit; r_ 0; r_ 1; r_ 1; r_ 1; r_ 1; r_ 2; cl_ 0 OSubmit; r_ 0; r_ 3; r_ 2; r_ 2;
    cl_ 0 ODestroy; r_ 0; r_ 1; r_ 1; r_ 1; r_ 1; r_ 1; r_ 3; r_ 3; r_ 2; r_ 3; r_ 1; r_ 1; r_ 1; r_ 2; r_ 2; r_ 2; r_ 1; r_ 1; r_ 3; r_ 0].
  split; [reflexivity|]. split; [reflexivity|]. split; [do 4 eexists; instantiate (4 := 2); reflexivity|]. split; [reflexivity|]. split; [cbn; tauto|reflexivity].
Qed.
