(** * Interruption: the theorems (C40, C41, C69, C70) *)
From Verif Require Import IT_More.
Set Implicit Arguments.

(** C40.  For any number of threads, in every reachable state: thread_interrupted has been thrown only at an interruption
    point of its target, with interruption enabled and a request pending, once per request; no interruption point has been
    passed with interruption enabled and a request pending; and interruption_requested() (the flag) tells exactly whether a request is pending. *)
Theorem interruption_exactly_once : forall ens s t, reach ens s ->
  delivered_ok t (hist s) /\ req s t = pending t (hist s).
Proof. intros ens s t Hr. pose proof (Inv_reach Hr) as HI. split; [apply (i_del HI)|apply (i_req HI)]. Qed.
Print Assumptions interruption_exactly_once.

(** C70.  interruption_enabled() is what the nesting of disable_interruption and restore_interruption scopes says,
    provided restore_interruption objects are constructed only while interruption is disabled. *)
Theorem interruption_scopes_partial : forall ens s t x e0, reach ens s ->
  nth_error (thrs s) t = Some x -> nth_error ens t = Some e0 -> restores_when_disabled e0 t (hist s) ->
  t_en x = should_be_enabled e0 t (hist s).
Proof. intros ens s t x e0 Hr Hx He H. exact (proj1 (InvS_reach Hr t Hx He H)). Qed.
Print Assumptions interruption_scopes_partial.

(** C70.  Without that proviso it is false: after disable { restore { restore { } the destructor of the inner
    restore_interruption leaves interruption disabled inside the outer one. *)
Theorem interruption_scopes_refuted :
  ~ (forall ens s t x e0, reach ens s -> nth_error (thrs s) t = Some x -> nth_error ens t = Some e0 ->
       t_en x = should_be_enabled e0 t (hist s)).
Proof.
  intros H.
  destruct (@execs_ex [true] [LCall 0 ODisable; LCall 0 (ORestore 0); LCall 0 (ORestore 1); LCall 0 OEndScope]
    (fun s => exists x, nth_error (thrs s) 0 = Some x /\ t_en x = false /\ should_be_enabled true 0 (hist s) = true)) as (s & Hr & x & Hx & E1 & E2).
  { vm_compute. eexists. repeat split. }
  specialize (H _ s 0 x true Hr Hx eq_refl). congruence.
Qed.
Print Assumptions interruption_scopes_refuted.

(** C41.  interrupt() wakes its target: while [t] stays asleep in an interruptible wait, no call of interrupt() on [t]
    made during that time has returned. *)
Theorem interrupt_wakes_sleeper : forall ens s0 s1 u t c, reach ens s0 ->
  called s0 u (OInterrupt t) -> asleep_interruptibly s0 t c ->
  path (fun _ s' => asleep_interruptibly s' t c) s0 s1 ->
  ~ idle s1 u.
Proof.
  intros ens s0 s1 u t c Hr Hc Ha Hp (y & Hy & Hi). destruct (interrupt_path Hr Hc Ha Hp) as (_ & z & Hz & E).
  assert (z = y) by congruence. subst. intuition congruence.
Qed.
Print Assumptions interrupt_wakes_sleeper.

(** C41.  No schedule leaves a thread asleep in an interruptible wait with a request pending, once no call of interrupt() on it is in progress. *)
Theorem no_interrupted_sleeper : forall ens s t c, reach ens s ->
  asleep_interruptibly s t c -> pending t (hist s) = true -> exists u, interrupting s u t.
Proof.
  intros ens s t c Hr (x & Hx & Ex) Hp. pose proof (Inv_reach Hr) as HI.
  destruct (i_exp HI c Hx) as (u & y & Hy & E); [now rewrite Ex|now rewrite (i_req HI)|].
  exists u, y. split; [exact Hy|]. destruct E as [-> | ->]; reflexivity.
Qed.
Print Assumptions no_interrupted_sleeper.

(** C41.  That call cannot be blocked for ever by the library's own mutexes: a thread blocked on the internal mutex of a condition variable
    or on the data mutex of a thread waits for a holder that can take a step, or that waits for an internal mutex whose holder can.  *)
Theorem interruption_never_deadlocks : forall ens s t, reach ens s ->
  (forall c, blocked_on s t (I c) -> exists v, own s (I c) = Some v /\ can_run s v) /\
  (forall d, blocked_on s t (D d) -> exists v, own s (D d) = Some v /\
     (can_run s v \/ exists c w, blocked_on s v (I c) /\ own s (I c) = Some w /\ can_run s w)).
Proof.
  intros ens s t Hr. pose proof (Inv_reach Hr) as HI. split.
  - intros c (x & m & _ & _ & _ & Ho). exact (holder_I c HI Ho).
  - intros d (x & m & _ & _ & _ & Ho). destruct (own s (D d)) as [v|] eqn:E; [|congruence]. exists v. split; [reflexivity|].
    destruct (i_own HI _ E) as (y & Hy & Hh). destruct (@hD_runs s v y d HI Hy Hh) as [H|[c Hb]]; [now left|right].
    exists c. assert (Ho' : own s (I c) <> None) by (destruct Hb as (? & ? & _ & _ & _ & H); exact H).
    destruct (holder_I c HI Ho') as (w & Hw & Hc). exists w. auto.
Qed.
Print Assumptions interruption_never_deadlocks.
Theorem runnable_threads_step : forall s t, can_run s t -> exists s', step s s'.
Proof. exact can_run_step. Qed.
Print Assumptions runnable_threads_step.

(** C41.  When a wait has ended, normally or with thread_interrupted, its caller owns the user's mutex. *)
Theorem wait_ends_with_mutex : forall ens s t c, reach ens s ->
  idle s t -> last_call t (hist s) = Some (OWait c) -> own s (U c) = Some t.
Proof.
  intros ens s t c Hr (x & Hx & Ei) Hl. pose proof (InvU_reach Hr t Hx) as H. rewrite Ei in H. exact (H c Hl).
Qed.
Print Assumptions wait_ends_with_mutex.

(** C69.  notify_all() wakes every thread that had released its mutex in a wait: such a thread does not go on waiting
    until notify_all() has returned. *)
Theorem notify_all_wakes : forall ens s0 s1 u t c, reach ens s0 ->
  called s0 u (ONotifyAll c) -> waiting s0 t c -> path (fun _ s' => waiting s' t c) s0 s1 -> ~ idle s1 u.
Proof.
  intros ens s0 s1 u t c Hr Hc Ha Hp (y & Hy & Hi). destruct (notify_all_path Hr Hc Ha Hp) as (_ & z & Hz & E).
  assert (z = y) by congruence. subst. intuition congruence.
Qed.
Print Assumptions notify_all_wakes.
(** C69.  notify_one() wakes somebody if anybody waits: it does not return before some waiting thread has been woken. *)
Theorem notify_one_wakes : forall ens s0 s1 u t c, reach ens s0 ->
  called s0 u (ONotifyOne c) -> waiting s0 t c ->
  path (fun s s' => forall v, waiting s v c -> waiting s' v c) s0 s1 -> ~ idle s1 u.
Proof.
  intros ens s0 s1 u t c Hr Hc Ha Hp (y & Hy & Hi). destruct (signal_path Hr Hc Ha Hp) as (_ & z & Hz & E).
  assert (z = y) by congruence. subst. intuition congruence.
Qed.
Print Assumptions notify_one_wakes.

(** Two threads wait on condition variable 0; then thread 2 calls notify_one. *)
Definition to_waits : list label :=
  [LCall 0 (OLock 0); LRun 0 0; LCall 0 (OWait 0)] ++ repeat (LRun 0 0) 7 ++
  [LCall 1 (OLock 0); LRun 1 0; LCall 1 (OWait 0)] ++ repeat (LRun 1 0) 7 ++ [LCall 2 (ONotifyOne 0)].
Definition swallow : list label :=
  [LRun 2 0; LRun 2 0; LRun 2 0] ++                             (* notify_one wakes thread 0, and returns *)
  [LRun 0 0; LRun 0 0; LRun 0 0; LRun 0 0] ++                   (* thread 0 is no longer registered with the condition variable *)
  [LCall 2 (OInterrupt 0)] ++ repeat (LRun 2 0) 3 ++            (* and is interrupted *)
  repeat (LRun 0 0) 4.                                          (* its wait throws *)

(** C69.  The notification is not passed on when the woken thread leaves its wait with thread_interrupted: thread 0 leaves with the exception,
    thread 1, which waited when notify_one was called, sleeps on, and nobody is in any call that could wake it. *)
Theorem notification_passed_on_refuted :
  exists s0 s1, reach [true; true; true] s0 /\ path (fun _ _ => True) s0 s1 /\
    called s0 2 (ONotifyOne 0) /\ asleep s0 0 0 /\ asleep s0 1 0 /\
    (exists h, hist s1 = EThrow 0 true :: h) /\ last_call 0 (hist s1) = Some (OWait 0) /\ idle s1 0 /\ idle s1 2 /\ asleep s1 1 0.
Proof.
  apply execs_ex2 with (l0 := to_waits) (l1 := swallow). vm_compute. repeat split.
  - eexists. split; reflexivity.
  - eexists _, _. split; reflexivity.
  - eexists _, _. split; reflexivity.
  - eexists. reflexivity.
  - eexists. split; reflexivity.
  - eexists. split; reflexivity.
  - eexists _, _. split; reflexivity.
Qed.
Print Assumptions notification_passed_on_refuted.

(** ** The hypotheses are met *)
(** thread 0 sleeps interruptibly and thread 2 has called interrupt on it *)
Example interrupted_example : exists s, reach [true; true; true] s /\ asleep_interruptibly s 0 0 /\ called s 2 (OInterrupt 0).
Proof.
  apply execs_ex with (lbs := ([LCall 0 (OLock 0); LRun 0 0; LCall 0 (OWait 0)] ++ repeat (LRun 0 0) 7 ++ [LCall 2 (OInterrupt 0)])).
  vm_compute. split; eexists; split; reflexivity.
Qed.
(** ... and has set the flag: the request is pending, thread 0 sleeps, thread 2 is inside interrupt(), as [no_interrupted_sleeper] says *)
Example pending_example : exists s, reach [true; true; true] s /\ asleep_interruptibly s 0 0 /\ pending 0 (hist s) = true.
Proof.
  apply execs_ex with (lbs := ([LCall 0 (OLock 0); LRun 0 0; LCall 0 (OWait 0)] ++ repeat (LRun 0 0) 7 ++ [LCall 2 (OInterrupt 0); LRun 2 0; LRun 2 0])).
  vm_compute. split; [eexists; split; reflexivity|reflexivity].
Qed.
(** ... and when interrupt() has returned, thread 0 wakes up and throws with the mutex locked *)
Example thrown_example : exists s, reach [true; true; true] s /\ idle s 0 /\ last_call 0 (hist s) = Some (OWait 0) /\
  (exists h, hist s = EThrow 0 true :: h) /\ own s (U 0) = Some 0.
Proof.
  apply execs_ex with (lbs := ([LCall 0 (OLock 0); LRun 0 0; LCall 0 (OWait 0)] ++ repeat (LRun 0 0) 7 ++ [LCall 2 (OInterrupt 0)] ++ repeat (LRun 2 0) 6 ++ repeat (LRun 0 0) 8)).
  vm_compute. split; [eexists; split; reflexivity|]. split; [reflexivity|]. split; [eexists; reflexivity|reflexivity].
Qed.
(** two interrupters and one target: the second is blocked on the target's data mutex *)
Example blocked_example : exists s, reach [true; true; true] s /\ blocked_on s 1 (D 0).
Proof.
  apply execs_ex with (lbs := [LCall 2 (OInterrupt 0); LRun 2 0; LCall 1 (OInterrupt 0)]).
  vm_compute. eexists _, _. split; [reflexivity|]. split; [reflexivity|]. split; [reflexivity|]. discriminate.
Qed.
(** nested scopes used as intended *)
Example scopes_example : exists s, reach [true] s /\ exists x, nth_error (thrs s) 0 = Some x /\ restores_when_disabled true 0 (hist s) /\ t_en x = true.
Proof.
  apply execs_ex with (lbs := [LCall 0 ODisable; LCall 0 ODisable; LCall 0 (ORestore 1)]).
  vm_compute. eexists. split; [reflexivity|]. split; [auto|reflexivity].
Qed.
