(** * Join, detach and thread exit: the theorems (C42, C71) *)
From Verif Require Import MonWake SettleR JN_Model JN_Spec JN_Proofs JN_Timed.

(** C42.  For any number of threads joining (with or without timeout), detaching or being interrupted in any order: when any join has
    returned success the thread function and the exit handlers have ended, and unless somebody detached the thread it has terminated. *)
Theorem join_after_end : forall n c, reachable jnprog n jinit tt c -> some_join_succeeded c ->
  function_and_handlers_ended c /\ (terminated c \/ detach_called c).
Proof.
  intros n c Hr H. destruct (Inv_reachable _ _ Hr) as [_ HN HJ _ HK]. destruct (HJ H) as [A B]. unfold function_and_handlers_ended. split.
  - rewrite (n_dn _ _ HN) in B. apply Nat.leb_le in B. lia.
  - exact (HK A).
Qed.
Print Assumptions join_after_end.

(** C42.  The operating system's thread is joined or detached at most once, exactly once when a join has succeeded, and exactly
    once when the object is not joinable any more and no call is in progress; joining it twice or after detaching it (undefined behaviour) never happens. *)
Theorem join_detach_once : forall n c, reachable jnprog n jinit tt c ->
  os_joins_and_detaches c <= 1 /\
  (some_join_succeeded c -> os_joins_and_detaches c = 1) /\
  (joinable c = false -> all_idle c -> os_joins_and_detaches c = 1) /\
  ~ In (Crashed jk jop jcv unit) (thr c).
Proof.
  intros n c Hr. destruct (Inv_reachable _ _ Hr) as [Hst HN HJ _ _]. unfold os_joins_and_detaches.
  destruct HN as [H1 H2 H3 H4 H5 H6 H7 H8 H9 H10 H11 H12]. split; [|split; [|split]].
  - destruct (js (sh c)); simpl in *; lia.
  - intros H. destruct (HJ H) as [A _]. rewrite A in H4. destruct (js (sh c)); simpl in *; lia.
  - unfold joinable. intros Ho Hi. rewrite Ho in H12.
    assert (Hz : forall f, cnt f (thr c) = 0).
    { intros f. apply sumw_zero. intros x Hin. apply In_nth_error in Hin as [i Hi'].
      destruct (Hi i) as [l Hl]; [apply nth_error_Some; congruence|]. rewrite Hl in Hi'. injection Hi' as <-. reflexivity. }
    rewrite !Hz in *. destruct (js (sh c)); simpl in *; lia.
  - intros Hin. rewrite Forall_forall in Hst. exact (Hst _ Hin).
Qed.
Print Assumptions join_detach_once.

(** C42.  Nobody is left waiting: left alone every call comes to rest, and when the thread has terminated, at rest nobody is inside a call. *)
Theorem join_returns : forall n c, reachable jnprog n jinit tt c -> quiescent c -> terminated c -> all_idle c.
Proof. intros n c Hr Hq Ht t Hlt. exact (join_live n c t Hr Hq Ht Hlt). Qed.
Print Assumptions join_returns.
Theorem join_settles : forall n c, reachable jnprog n jinit tt c ->
  exists ls c', run jnprog c ls = Some c' /\ quiescent c' /\ Forall (fun lb => match lb with LRun _ _ _ _ => True | _ => False end) ls.
Proof.
  intros n c Hr. destruct (ranked_settles tt jn_ranked Hr) as (ls & c' & Hrun & [Hq|Hx] & Hf); [eauto|]. exfalso.
  assert (Hr' : reachable jnprog n jinit tt c') by (eapply reachable_run; eauto).
  exact (proj2 (proj2 (proj2 (join_detach_once n c' Hr'))) Hx).
Qed.
Print Assumptions join_settles.

(** C42.  A timed join whose deadline passes looks once more: if by then the thread has announced its end, it does not report a timeout. *)
Theorem join_timeout_rechecks : forall n c1 c2 c3 c4 t ls ls' h, reachable jnprog n jinit tt c1 ->
  step jnprog c1 (LTimeout jop unit t) = Some c2 -> run jnprog c2 ls = Some c3 ->
  (forall lb, In lb ls -> match lb with LRun _ u _ _ => u <> t | _ => True end) -> dn (sh c3) = true ->
  run jnprog c3 ls' = Some c4 -> hist c4 = h ++ hist c3 -> (forall op, ~ In (ECall jres t op) h) -> forall op, ~ In (EDone t op RTimedOut) h.
Proof. exact timed_join_late. Qed.
Print Assumptions join_timeout_rechecks.
(** Thread 1 joins with a timeout; the deadline passes just before thread 0 announces its end; the join succeeds. *)
Example join_timeout_case : exists c1 c2 c3 c4 h, run jnprog (init jk jop jres jcv 2 jinit tt)
    [LCall unit 1 OTryJoin; LRun jop 1 [] tt; LRun jop 1 [] tt; LCall unit 0 OThread; LRun jop 0 [] tt; LRun jop 0 [] tt; LRun jop 0 [] tt] = Some c1 /\
  step jnprog c1 (LTimeout jop unit 1) = Some c2 /\ run jnprog c2 [LRun jop 0 [] tt] = Some c3 /\ dn (sh c3) = true /\
  run jnprog c3 [LRun jop 0 [] tt; LRun jop 0 [] tt; LRun jop 1 [] tt; LRun jop 1 [] tt; LRun jop 1 [] tt; LRun jop 1 [] tt; LRun jop 1 [] tt; LRun jop 1 [] tt] = Some c4 /\
  hist c4 = h ++ hist c3 /\ In (EDone 1 OTryJoin RJoined) h.
Proof.
  do 4 eexists. exists [EDone 1 OTryJoin RJoined; EDone 0 OThread RVoid].
  split; [vm_compute; reflexivity|]. split; [vm_compute; reflexivity|]. split; [vm_compute; reflexivity|]. split; [reflexivity|].
  split; [vm_compute; reflexivity|]. split; [reflexivity|left; reflexivity].
Qed.

(** C71.  The actions registered for the end of the thread are performed at most once, not before the thread function and
    the handlers have ended, and they have been performed when the thread has terminated, the object has been joined or detached, and no call is in progress. *)
Theorem exit_actions_partial : forall n c, reachable jnprog n jinit tt c ->
  exit_actions_done c <= 1 /\
  (exit_actions_done c = 1 -> function_and_handlers_ended c) /\
  (terminated c -> joinable c = false -> all_idle c -> exit_actions_done c = 1).
Proof.
  intros n c Hr. destruct (Inv_reachable _ _ Hr) as [Hst HN _ _ _]. destruct HN as [H1 H2 H3 H4 H5 H6 H7 H8 H9 H10 H11 H12].
  unfold exit_actions_done, function_and_handlers_ended, terminated, joinable. split; [|split].
  - rewrite H2. destruct (refs (sh c) =? 0); lia.
  - rewrite H2. destruct (Nat.eqb_spec (refs (sh c)) 0) as [E|]; [|discriminate]. intros _.
    destruct (Nat.ltb_spec (ph (sh c)) 5); simpl in H1; lia.
  - intros Hp Ho Hi. assert (Hz : cnt rw (thr c) = 0).
    { apply sumw_zero. intros x Hin. apply In_nth_error in Hin as [i Hi'].
      destruct (Hi i) as [l Hl]; [apply nth_error_Some; congruence|]. rewrite Hl in Hi'. injection Hi' as <-. reflexivity. }
    rewrite Hp, Ho, Hz in H1. simpl in H1. rewrite H2, H1. reflexivity.
Qed.
Print Assumptions exit_actions_partial.

Definition run_thread : list (label jop unit) := LCall unit 0 OThread :: repeat (LRun jop 0 [] tt) 6.

(** C71.  They are not performed at the end of the thread while a boost::thread object still represents it: here the thread has terminated,
    nothing runs, and they have not been performed; they are performed later, by the thread that joins (which then unlocks a mutex it does not own). *)
Theorem exit_actions_at_exit_refuted :
  (exists c, reachable jnprog 2 jinit tt c /\ terminated c /\ all_idle c /\ exit_actions_done c = 0) /\
  (exists c, reachable jnprog 2 jinit tt c /\ exit_actions_done c = 1 /\ done_by_itself c = false).
Proof.
  split.
  - destruct (run jnprog (init jk jop jres jcv 2 jinit tt) run_thread) as [c|] eqn:E; [|vm_compute in E; discriminate].
    exists c. split; [exists run_thread; exact E|]. vm_compute in E. injection E as <-. split; [reflexivity|]. split; [|reflexivity].
    intros [|[|t]] Ht; [exists tt; reflexivity|exists tt; reflexivity|simpl in Ht; lia].
  - set (ls := run_thread ++ LCall unit 1 OJoin :: repeat (LRun jop 1 [] tt) 7).
    destruct (run jnprog (init jk jop jres jcv 2 jinit tt) ls) as [c|] eqn:E; [|vm_compute in E; discriminate].
    exists c. split; [exists ls; exact E|]. vm_compute in E. injection E as <-. split; reflexivity.
Qed.
Print Assumptions exit_actions_at_exit_refuted.

(** ** The hypotheses are met: two joiners, one of which waits for the other's pthread_join; both succeed *)
Example two_joiners : exists c, reachable jnprog 3 jinit tt c /\ some_join_succeeded c /\ quiescent c /\ terminated c /\ joinable c = false /\
  In (EDone 1 OJoin RJoined) (hist c) /\ In (EDone 2 OTryJoin RJoined) (hist c).
Proof.
  set (r := fun t => LRun jop t [] tt).
  set (ls := [LCall unit 1 OJoin; r 1; r 1; LCall unit 2 OTryJoin; r 2; r 2; LCall unit 0 OThread; r 0; r 0; r 0; r 0; r 1; r 2; r 1; r 1; r 0; r 0; r 1; r 1; r 1; r 1; r 2; r 2; r 2]).
  destruct (run jnprog (init jk jop jres jcv 3 jinit tt) ls) as [c|] eqn:E; [|vm_compute in E; discriminate].
  exists c. split; [exists ls; exact E|]. vm_compute in E. injection E as <-.
  split; [exists 1, OJoin; simpl; auto 30|]. repeat split; simpl; auto 30.
Qed.
(** a thread detached before its end performs its exit actions itself *)
Example detached_performs : exists c, reachable jnprog 2 jinit tt c /\ terminated c /\ joinable c = false /\ exit_actions_done c = 1 /\ done_by_itself c = true.
Proof.
  set (ls := LCall unit 1 ODetach :: repeat (LRun jop 1 [] tt) 3 ++ run_thread).
  destruct (run jnprog (init jk jop jres jcv 2 jinit tt) ls) as [c|] eqn:E; [|vm_compute in E; discriminate].
  exists c. split; [exists ls; exact E|]. vm_compute in E. injection E as <-. repeat split.
Qed.
