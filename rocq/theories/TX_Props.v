(** * Theorems about thread_executor (C96, C97) and inline_executor (C98) *)
From Verif Require Import TX_Spec TX_Proofs TX_Inline.
Set Implicit Arguments.

(** C96: when the destructor of a thread_executor returns, every closure that was accepted has returned; and nothing happens to the executor afterwards. *)
Theorem thread_executor_destructor_waits us s h2 h1 :
  reach us s -> hist s = h2 ++ EGone :: h1 -> h2 = [] /\ forall w i, In (EAccept w i) h1 -> In (EEnd i) h1.
Proof.
  intros Hr E. pose proof (i_hist (Inv_reach Hr)) as HG. rewrite E in HG. split.
  - destruct h2 as [|e h2]; [reflexivity|]. exfalso. cbn in HG. destruct HG as ((HG & _) & _). apply HG. apply in_or_app. right. left. reflexivity.
  - apply hgood_split in HG as (_ & HG). exact HG.
Qed.
Print Assumptions thread_executor_destructor_waits.

(** C96: every accepted closure has a number of its own, and only accepted closures return, once each. *)
Theorem thread_executor_once us s h2 h1 i :
  reach us s ->
  (forall w, hist s = h2 ++ EAccept w i :: h1 -> forall u, ~ In (EAccept u i) h1) /\
  (hist s = h2 ++ EEnd i :: h1 -> (exists u, In (EAccept u i) h1) /\ ~ In (EEnd i) h1).
Proof.
  intros Hr. pose proof (i_hist (Inv_reach Hr)) as HG. split; [intros w|]; intros E; rewrite E in HG; apply hgood_split in HG; destruct HG as (_ & HG); [apply HG|exact HG].
Qed.
Print Assumptions thread_executor_once.

(** C96: submit is refused exactly after a close (by anybody, or by the destructor), and closed() tells so. *)
Theorem thread_executor_closed us s h2 h1 w :
  reach us s ->
  (forall i, hist s = h2 ++ EAccept w i :: h1 -> forall u, ~ In (EClose u) h1) /\
  (hist s = h2 ++ ERefuse w :: h1 -> exists u, In (EClose u) h1) /\
  (forall b, hist s = h2 ++ EQuery w b :: h1 -> (b = true <-> exists u, In (EClose u) h1)).
Proof.
  intros Hr. pose proof (i_hist (Inv_reach Hr)) as HG.
  split; [intros i|split; [|intros b]]; intros E; rewrite E in HG; apply hgood_split in HG; destruct HG as (_ & HG); [apply HG|exact HG|exact HG].
Qed.
Print Assumptions thread_executor_closed.

(** C97: no closure and no user ever waits for another one: each can take its next step, whatever the others do. *)
Theorem thread_executor_no_waiting s i :
  ub s = false -> term s = false ->
  (forall r, nth_error (workers s) i = Some (Running r) -> exists s', step s (LWorker i) = Some s') /\
  (forall c r, nth_error (users s) i = Some (c :: r) -> exists s', step s (LUser i) = Some s').
Proof. intros Hu Ht. split; [intros r Hi; exact (worker_steps _ _ Hu Ht Hi)|intros c r Hi; exact (user_steps _ _ Hu Ht Hi)]. Qed.
Print Assumptions thread_executor_no_waiting.

(** C97: whatever closures submit, all runs are finite, and where a run cannot go on, the destructor has returned (or the program has been terminated, or its
    behaviour is undefined, which the next theorems are about). *)
Theorem thread_executor_terminates us :
  (exists N, forall n s, steps (init us) n s -> n <= N) /\
  (forall s, reach us s -> stuck s -> ub s = true \/ term s = true \/ In EGone (hist s)).
Proof.
  split.
  - exists (size (init us)). intros n s H. apply steps_size in H. lia.
  - intros s Hr Hs. destruct (stuck_end Hr Hs) as [H|[H|H]]; auto. right. right. apply (i_gone (Inv_reach Hr)). exact H.
Qed.
Print Assumptions thread_executor_terminates.

(** C97: the executor is not used after its destruction, and the program is not terminated, when the closures make no use of their executor and do not throw; ... *)
Theorem thread_executor_alive_partial us s :
  Forall (Forall independent) us -> reach us s -> ub s = false /\ term s = false.
Proof. exact (@independent_alive us s). Qed.
Print Assumptions thread_executor_alive_partial.

(** ... or when all closures have returned before the destructor is called ... *)
Theorem thread_executor_use_after_destruction us s :
  reach us s -> ub s = true -> exists h2 h1 w i, hist s = h2 ++ EClose Dtor :: h1 /\ In (EAccept w i) h1 /\ ~ In (EEnd i) (hist s).
Proof. exact (@ub_late us s). Qed.
Print Assumptions thread_executor_use_after_destruction.

(** ... but not always: a closure that only submits another one, prepared for a refusal, uses the destroyed mutex when the destructor, which waits for it, has
    got that far. *)
Theorem thread_executor_alive_refuted :
  exists us s, Forall (Forall user_careful) us /\ reach us s /\ ub s = true.
Proof.
  exists [[Submit [Submit [] true] false]]. eexists. split; [repeat constructor|]. split.
  - eapply reach_run with (ls := [LUser 0; LDtor; LDtor; LWorker 0]); [apply reach_init|]. vm_compute. reflexivity.
  - reflexivity.
Qed.
Print Assumptions thread_executor_alive_refuted.

(** Closures that are prepared for refusals and do not throw never terminate the program. *)
Theorem thread_executor_no_terminate us s : Forall (Forall user_careful) us -> reach us s -> term s = false.
Proof. exact (@careful_term us s). Qed.
Print Assumptions thread_executor_no_terminate.

(** Two users, a closure that submits another one; all three closures run, then the destructor returns. *)
Example thread_executor_story : exists s, reach [[Submit [Submit [] true] false]; [Submit [Query] false]] s /\
  hist s = [] ++ EGone :: [EEnd 0; EEnd 2; EClose Dtor; EAccept (Worker 0) 2; EEnd 1; EQuery (Worker 1) false; EAccept (User 1) 1; EAccept (User 0) 0].
Proof.
  eexists. split.
  - eapply reach_run with (ls := [LUser 0; LUser 1; LWorker 1; LWorker 1; LWorker 0; LDtor; LWorker 2; LWorker 0; LDtor; LDtor; LDtor; LDtor; LDtor]); [apply reach_init|]. vm_compute. reflexivity.
  - reflexivity.
Qed.
Example thread_executor_independent_ex : Forall (Forall independent) [[Submit [] false; Close]; [Submit [] true; Query]] /\
  exists s, reach [[Submit [] false; Close]; [Submit [] true; Query]] s /\ In (ERefuse (User 1)) (hist s) /\ In (EEnd 0) (hist s).
Proof.
  split; [repeat constructor|]. eexists. split.
  - eapply reach_run with (ls := [LUser 0; LUser 0; LWorker 0; LUser 1; LUser 1]); [apply reach_init|]. vm_compute. reflexivity.
  - cbn. auto.
Qed.

(** C98: with an inline_executor, a closure that returns is the one that the thread began last and has not finished: closures of one thread nest, and
    submit returns, on the submitting thread, when its closure has returned. *)
Theorem inline_executor_nests us s h2 h1 t i :
  ireach us s -> ihist s = h2 ++ IEnd t i :: h1 -> hd_error (running t h1) = Some i.
Proof. intros Hr E. pose proof (j_hist (IInv_reach Hr)) as HG. rewrite E in HG. exact (ihgood_split _ _ _ HG). Qed.
Print Assumptions inline_executor_nests.

(** C98: every accepted submission is followed, on the same thread, by exactly one begin of a closure; no closure begins twice. *)
Theorem inline_executor_once us s t :
  ireach us s ->
  (forall h2 h1 i, ihist s = h2 ++ IBegin t i :: h1 -> (forall u, ~ In (IBegin u i) h1) /\ accepts t h1 = S (begins t h1)) /\
  (forall x, nth_error (ithrs s) t = Some x -> accepts t (ihist s) = begins t (ihist s) + match about x with Some _ => 1 | None => 0 end).
Proof.
  intros Hr. pose proof (IInv_reach Hr) as [A B C D]. split.
  - intros h2 h1 i E. rewrite E in D. exact (ihgood_split _ _ _ D).
  - intros x Hx. apply (A _ _ Hx).
Qed.
Print Assumptions inline_executor_once.

(** C98: submissions are refused exactly after a close. *)
Theorem inline_executor_closed us s h2 h1 t :
  ireach us s ->
  (ihist s = h2 ++ IAccept t :: h1 -> forall u, ~ In (IClose u) h1) /\
  (ihist s = h2 ++ IRefuse t :: h1 -> exists u, In (IClose u) h1) /\
  (forall b, ihist s = h2 ++ IQuery t b :: h1 -> (b = true <-> exists u, In (IClose u) h1)).
Proof.
  intros Hr. pose proof (j_hist (IInv_reach Hr)) as HG.
  split; [|split; [|intros b]]; intros E; rewrite E in HG; apply ihgood_split in HG; exact HG.
Qed.
Print Assumptions inline_executor_closed.

(** C98: a thread never blocks in an inline_executor, also when closures submit closures, to any depth; and every run ends. *)
Theorem inline_executor_never_blocks us s t x :
  ireach us s -> iterm s = false -> nth_error (ithrs s) t = Some x -> x <> MkT None [(None, [])] -> exists s', istep s t = Some s'.
Proof. exact (@istep_progress us s t x). Qed.
Print Assumptions inline_executor_never_blocks.
Theorem inline_executor_terminates us : exists N, forall n s, isteps (iinit us) n s -> n <= N.
Proof. exists (icsize (iinit us)). intros n s H. apply isteps_size in H. lia. Qed.
Print Assumptions inline_executor_terminates.

(** Nested submissions, with another thread closing the executor in between: the closure that was accepted before begins after the close. *)
Example inline_executor_story : exists s, ireach [[Submit [Submit [] true; Query] true]; [Close; Submit [] false]] s /\
  ihist s = [] ++ IEnd 0 0 :: [IQuery 0 true; IEnd 0 1; IRefuse 1; IBegin 0 1; IClose 1; IAccept 0; IBegin 0 0; IAccept 0] /\ running 0 (tl (ihist s)) = [0].
Proof.
  eexists. split.
  - eapply ireach_run with (ls := [0; 0; 0; 1; 0; 1; 0; 0; 0]); [apply ireach_init|]. vm_compute. reflexivity.
  - split; reflexivity.
Qed.
