(** * C57, C58, C60: thread pools and loop executors *)
From Verif Require Import SQ_Model.
From Verif Require Import EX_More.
Set Implicit Arguments.
Notation occ := (count_occ Nat.eq_dec).

(** C57.  In every state of a pool of [W] threads, whatever the closures do: nothing is undefined; the closures begun are the first
    accepted ones, each begun once, in the order of submission; a closure has ended as often as it was begun, except while it is being run;
    every submit that returned normally has been accepted; submit throws only if the pool is closed, and always after close has returned. *)
Theorem pool_runs_once : forall W n c, reachable (exprog W (pool_ops true)) n ex0 tt c ->
  ~ In (Crashed ek eop ecv unit) (thr c) /\
  begun_in_order (sh c) /\
  (forall x, occ (begun (sh c)) x <= 1 /\ occ (ended (sh c)) x + runs x (thr c) = occ (begun (sh c)) x) /\
  submits (hist c) <= accepted (sh c) /\
  (forall h2 t r h1, hist c = h2 ++ EDone t OSubmit r :: h1 ->
     (r = ROk \/ r = RThrow) /\ ((exists t' r', In (EDone t' OClose r') h1) -> r = RThrow) /\ (r = RThrow -> cl (sh c) = true)).
Proof.
  intros W n c Hr. split; [exact (no_crash eq_refl Hr)|]. split; [exact (in_order eq_refl Hr)|].
  split; [intros x; split; [exact (begun_le1 eq_refl x Hr)|exact (conserve eq_refl x Hr)]|].
  split; [exact (submits_le eq_refl Hr)|]. intros h2 t r h1. exact (submit_once eq_refl h2 t r h1 Hr).
Qed.
Print Assumptions pool_runs_once.

(** C57.  When join has returned (which it does only after close), every accepted closure has been begun, in the order of submission, and has ended, unless another thread is
    running it with try_executing_one. *)
Theorem pool_join : forall W n c t r, 0 < W -> reachable (exprog W (pool_ops false)) n ex0 tt c -> In (EDone t OJoin r) (hist c) ->
  cl (sh c) = true /\ rev (begun (sh c)) = seq 0 (accepted (sh c)) /\ (forall x, x < accepted (sh c) -> In x (ended (sh c)) \/ run_by OTry x (thr c)).
Proof. intros W n c t r HW Hr. exact (after_join eq_refl _ _ Hr HW eq_refl eq_refl). Qed.
Print Assumptions pool_join.

(** C57.  No accepted closure is forgotten: if no thread of a pool with at least one worker can run, every accepted closure has been begun and has ended. *)
Theorem pool_none_forgotten : forall W n c, reachable (exprog W (pool_ops false)) n ex0 tt c -> quiescent c -> 0 < nw (sh c) ->
  rev (begun (sh c)) = seq 0 (accepted (sh c)) /\ forall x, occ (ended (sh c)) x = occ (begun (sh c)) x.
Proof. intros W n c Hr Hq Hn. destruct (rest_all eq_refl Hr Hq eq_refl Hn) as [E1 E2]. split; auto. rewrite E1. apply rev_involutive. Qed.
Print Assumptions pool_none_forgotten.

(** C58.  When the destructor has returned the pool is closed and no worker is running a closure: what has been begun has ended, unless another thread is
    running it with try_executing_one.  Missing: that every accepted closure has been begun; it is false. *)
Theorem pool_destroy_partial : forall W n c t r, reachable (exprog W (pool_ops true)) n ex0 tt c -> In (EDone t ODestroy r) (hist c) ->
  cl (sh c) = true /\ forall x, In x (begun (sh c)) -> In x (ended (sh c)) \/ run_by OTry x (thr c).
Proof. intros W n c t r Hr. exact (after_destroy eq_refl _ _ Hr eq_refl). Qed.
Print Assumptions pool_destroy_partial.

Definition cl_ (t : nat) (op : eop) : label eop act := LCall act t op.
Definition r_ (t : nat) (a : act) : label eop act := LRun eop t [] a.
Ltac witness P n s ls := let c := fresh "c" in let E := fresh "E" in
  destruct (run P (init ek eop eres ecv n s tt) ls) as [c|] eqn:E; [|vm_compute in E; discriminate]; exists c; split; [exists ls; exact E|]; vm_compute in E; injection E as <-.

(** C58.  The worker waits; a closure is accepted; before the worker goes on, the destructor closes the pool and interrupts the worker, which
    throws thread_interrupted out of its wait: the destructor returns and the accepted closure never runs. *)
Theorem pool_destroy_refuted : exists c, reachable (exprog 1 (pool_ops true)) 2 ex0 tt c /\ quiescent c /\
  In (EDone 1 OSubmit ROk) (hist c) /\ hd_error (hist c) = Some (EDone 1 ODestroy ROk) /\ accepted (sh c) = 1 /\ begun (sh c) = [].
Proof.
  witness (exprog 1 (pool_ops true)) 2 ex0
    [cl_ 0 OWork; r_ 0 AStep; r_ 0 AStep; cl_ 1 OSubmit; r_ 1 AStep; cl_ 1 ODestroy; r_ 1 AStep; r_ 1 AStep; r_ 0 AStep; r_ 1 AStep; r_ 1 AStep].
  repeat split; simpl; auto 20.
Qed.
Print Assumptions pool_destroy_refuted.

(** C60.  In every state of a loop_executor on which run_queued_closures is not called, whatever the closures do and whichever threads call loop and
    try_executing_one: the closures begun are the first accepted ones, each begun once, in the order of submission; a closure has ended as often as it
    was begun, except while it is being run; when loop has returned the executor is closed and all accepted closures have been begun.
    Missing: run_queued_closures; with it, it is false. *)
Theorem loop_executor_partial : forall n c, reachable (exprog 0 (loop_ops false)) n ex0 tt c ->
  ~ In (Crashed ek eop ecv unit) (thr c) /\
  begun_in_order (sh c) /\
  (forall x, occ (begun (sh c)) x <= 1 /\ occ (ended (sh c)) x + runs x (thr c) = occ (begun (sh c)) x) /\
  submits (hist c) <= accepted (sh c) /\
  (forall t r, In (EDone t OLoop r) (hist c) -> cl (sh c) = true /\ rev (begun (sh c)) = seq 0 (accepted (sh c))).
Proof.
  intros n c Hr. split; [exact (no_crash eq_refl Hr)|]. split; [exact (in_order eq_refl Hr)|].
  split; [intros x; split; [exact (begun_le1 eq_refl x Hr)|exact (conserve eq_refl x Hr)]|].
  split; [exact (submits_le eq_refl Hr)|]. intros t r. exact (after_loop eq_refl _ _ Hr).
Qed.
Print Assumptions loop_executor_partial.

(** C60.  One thread submits two closures, executes one and runs the queued closures; the container moved out by run_queued_closures keeps the index of its
    first element.  Executing one more is then undefined behaviour; if another closure is submitted first, try_executing_one reports that
    there is nothing, and loop, called after close, returns without running it. *)
Theorem loop_executor_refuted :
  (exists c, reachable (exprog 0 (loop_ops true)) 1 ex0 tt c /\ thr c = [Crashed ek eop ecv unit]) /\
  (exists c, reachable (exprog 0 (loop_ops true)) 1 ex0 tt c /\ hd_error (hist c) = Some (EDone 0 OLoop ROk) /\ In (EDone 0 OTry (RBool false)) (hist c) /\
    submits (hist c) = 3 /\ accepted (sh c) = 3 /\ rev (begun (sh c)) = [0; 1]).
Proof.
  split.
  - witness (exprog 0 (loop_ops true)) 1 ex0
    [cl_ 0 OSubmit; r_ 0 AStep; cl_ 0 OSubmit; r_ 0 AStep; cl_ 0 OTry; r_ 0 AStep; r_ 0 AEnd; r_ 0 AStep;
     cl_ 0 ORunQueued; r_ 0 AStep; r_ 0 AStep; r_ 0 AEnd; r_ 0 AStep; cl_ 0 OTry; r_ 0 AStep].
    reflexivity.
  - witness (exprog 0 (loop_ops true)) 1 ex0
    [cl_ 0 OSubmit; r_ 0 AStep; cl_ 0 OSubmit; r_ 0 AStep; cl_ 0 OTry; r_ 0 AStep; r_ 0 AEnd; r_ 0 AStep;
     cl_ 0 ORunQueued; r_ 0 AStep; r_ 0 AStep; r_ 0 AEnd; r_ 0 AStep; cl_ 0 OSubmit; r_ 0 AStep; cl_ 0 OTry; r_ 0 AStep; cl_ 0 OClose; r_ 0 AStep;
     cl_ 0 OLoop; r_ 0 AStep; r_ 0 AStep; r_ 0 AStep].
    repeat split; simpl; auto 20.
Qed.
Print Assumptions loop_executor_refuted.

(** ** The hypotheses are met *)
(** two workers and a thread that submits three closures, one of which submits another; close; join *)
Example pool_story : exists c, reachable (exprog 2 (pool_ops false)) 3 ex0 tt c /\ quiescent c /\ In (EDone 2 OJoin ROk) (hist c) /\ accepted (sh c) = 3 /\ rev (begun (sh c)) = [0; 1; 2] /\ ended (sh c) = [2; 0; 1] /\ nw (sh c) = 2.
Proof.
  witness (exprog 2 (pool_ops false)) 3 ex0
    [cl_ 0 OWork; r_ 0 AStep; r_ 0 AStep; cl_ 1 OWork; r_ 1 AStep; cl_ 2 OSubmit; r_ 2 AStep; cl_ 2 OSubmit; r_ 2 AStep; r_ 0 AStep; r_ 1 AStep; r_ 1 AStep; r_ 0 ASubmit; r_ 1 AEnd;
     r_ 1 AStep; r_ 0 AEnd; cl_ 2 OClose; r_ 2 AStep; cl_ 2 OJoin; r_ 2 AStep; r_ 2 AStep; r_ 0 AStep; r_ 2 AStep; r_ 1 AEnd; r_ 1 AStep; r_ 2 AStep].
  repeat split; simpl; auto 20.
Qed.
(** the same with a destructor: the worker is running a closure and finishes it *)
Example pool_destroy_story : exists c, reachable (exprog 1 (pool_ops true)) 2 ex0 tt c /\ In (EDone 1 ODestroy ROk) (hist c) /\ begun (sh c) = [0] /\ ended (sh c) = [0].
Proof.
  witness (exprog 1 (pool_ops true)) 2 ex0
    [cl_ 0 OWork; r_ 0 AStep; cl_ 1 OSubmit; r_ 1 AStep; r_ 0 AStep; cl_ 1 ODestroy; r_ 1 AStep; r_ 1 AStep; r_ 1 AStep; r_ 0 AEnd; r_ 0 AStep; r_ 1 AStep; r_ 1 AStep].
  repeat split; simpl; auto 20.
Qed.
(** a loop that sleeps, runs a nested closure, and ends after close *)
Example loop_story : exists c, reachable (exprog 0 (loop_ops false)) 2 ex0 tt c /\ In (EDone 0 OLoop ROk) (hist c) /\ rev (begun (sh c)) = [0; 1] /\ ended (sh c) = [0; 1].
Proof.
  witness (exprog 0 (loop_ops false)) 2 ex0
    [cl_ 0 OLoop; r_ 0 AStep; r_ 0 AStep; cl_ 1 OSubmit; r_ 1 AStep; r_ 0 AStep; r_ 0 ASubmit; r_ 0 ATry; r_ 0 AEnd; r_ 0 AEnd; cl_ 1 OClose; r_ 1 AStep; r_ 0 AStep; r_ 0 AStep].
  repeat split; simpl; auto 20.
Qed.
