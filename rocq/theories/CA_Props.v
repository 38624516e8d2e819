(** * Theorems about condition_variable_any *)
From Verif Require Import CA_Inv.
Set Implicit Arguments.

Ltac side := first [exact eq_refl | discriminate | eexists; exact eq_refl].
Tactic Notation "fwd" hyp(R) uconstr(rule) :=
  let H := fresh "R" in
  eassert (H : reach _) by (eapply r_step; [exact R|exact eq_refl|exact eq_refl|eapply rule; side]);
  clear R; rename H into R; unfold touch in R; cbn in R.
(** the same for [reach_if] *)
Tactic Notation "nwi" hyp(R) uconstr(rule) :=
  let H := fresh "R" in
  eassert (H : reach_if _ _) by (eapply ri_step; [exact R|exact eq_refl|exact eq_refl|eapply rule; side|discriminate|first [exact I|exact eq_refl]]);
  clear R; rename H into R; unfold touch in R; cbn in R.

(** ** C137 The caller's lock *)
(** In every execution, every event was legal when it happened (CA_Spec): wait() gives up the mutex only if the caller owns it, throws
    otherwise, and takes it back, when it is free, at the moment it ends, whether it returns or throws. *)
Theorem wait_any_gives_back_the_lock_partial s : reach s -> forall h2 e h1, hist s = h2 ++ e :: h1 -> legal e h1.
Proof. intros Hr h2 e h1 E. exact (legal_inv Hr h1 e h2 E). Qed.
Print Assumptions wait_any_gives_back_the_lock_partial.
(** Nothing else changes the mutexes, and nobody who waits has one of those it waits with. *)
Theorem wait_any_mutexes_partial s : reach s ->
  (forall m, mown s m = owner (hist s) m) /\
  (forall t m n, In (EReleased t m n) (hist s) -> existsb (ends n) (hist s) = false -> mown s m <> Some t).
Proof. exact (fun Hr => conj (lock_inv Hr) (@open_free s Hr)). Qed.
Print Assumptions wait_any_mutexes_partial.
(** An exception of lock() does not always reach the caller: the guard calls lock() once more while the exception is under way, and a
    second exception ends the program. *)
Theorem wait_any_exception_refuted : ~ (forall s, reach s -> dead s = false).
Proof.
  intros H. pose proof r_init as R.
  fwd R (@s_lock _ 1 0). fwd R (@s_wait _ 1 0). fwd R (@s_enter _ 1 0 0).
  fwd R (@s_release _ 1 0 0). fwd R (@s_sleep _ 1 0 0). fwd R (@s_spurious _ 1 0 0).
  fwd R (@s_wokeup _ 1 0 0). fwd R (@s_drop _ 1 0 0). fwd R (@s_fail _ 1 0 0). fwd R (@s_dead _ 1 0 0).
  apply H in R. discriminate.
Qed.
Print Assumptions wait_any_exception_refuted.

(** ** C138 No notification is lost *)
(** When notify_all() has returned, nobody still sleeps in a call of wait() that had released its mutex before notify_all() was called:
    whatever the mutexes are. *)
Theorem notify_all_any s : reach s -> forall t m n u k,
  before (hist s) (EReleased t m n) (ENotify u true k) -> In (ENotified u true k) (hist s) -> pcs s t <> WSleep m n.
Proof.
  intros Hr t m n u k HB HN HS.
  destruct (@told_inv s Hr t m n u true k) as [X _]; [now rewrite HS|now right|exact HB|discriminate X].
Qed.
Print Assumptions notify_all_any.
(** When notify_one() has returned and someone who had released their mutex before it was called still sleeps, it has woken somebody, who sleeps
    no more in that call. *)
Theorem notify_one_any s : reach s -> forall t m n u k,
  before (hist s) (EReleased t m n) (ENotify u false k) -> In (ENotified u false k) (hist s) -> pcs s t = WSleep m n ->
  exists w j, w <> t /\ In (EWoke k w j) (hist s) /\ forall m', pcs s w <> WSleep m' j.
Proof.
  intros Hr t m n u k HB HN HS.
  destruct (@told_inv s Hr t m n u false k) as (_ & w & j & X); [now rewrite HS|now right|exact HB|].
  pose proof (@woke_inv s Hr _ _ _ X) as W. exists w, j. split; [|split; [exact X|]].
  - eapply (@woke_other s Hr t m n); [now rewrite HS|exact HB|exact X].
  - intros m' Y. apply (W m'). now rewrite Y.
Qed.
Print Assumptions notify_one_any.
(** notify_one() wakes one thread at most. *)
Theorem notify_one_any_once s : reach s -> forall k, count (woken_by k) (hist s) <= 1.
Proof. exact (@woken_once s). Qed.
Print Assumptions notify_one_any_once.
(** Nothing gets stuck in the condition variable: if no call in progress can make a step, each thread is outside, asleep, or waits for its mutex, which
    another thread owns. *)
Theorem condition_any_progress s : reach s -> (forall l s', inner l -> ~ step s l s') -> forall t,
  match pcs s t with
  | Idle | WSleep _ _ => True
  | WRelock m _ | WAgain m _ => exists u, u <> t /\ mown s m = Some u
  | _ => False
  end.
Proof. exact (@stuck s). Qed.
Print Assumptions condition_any_progress.

(** Threads 1 and 2 wait with mutexes 0 and 7, thread 3 notifies: one, then all. *)
Definition two_waiters : list event := [EReleased 2 7 1; EReleased 1 0 0; EWait 2 7 1; EWait 1 0 0; ELocked 2 7; ELocked 1 0].
Ltac two R :=
  pose proof r_init as R;
  fwd R (@s_lock _ 1 0); fwd R (@s_lock _ 2 7); fwd R (@s_wait _ 1 0); fwd R (@s_wait _ 2 7);
  fwd R (@s_enter _ 1 0 0); fwd R (@s_release _ 1 0 0); fwd R (@s_sleep _ 1 0 0);
  fwd R (@s_enter _ 2 7 1); fwd R (@s_release _ 2 7 1); fwd R (@s_sleep _ 2 7 1).
Example notify_one_case : exists s, reach s /\ hist s = ENotified 3 false 2 :: EWoke 2 2 1 :: ENotify 3 false 2 :: two_waiters /\ pcs s 1 = WSleep 0 0 /\
  before (hist s) (EReleased 1 0 0) (ENotify 3 false 2) /\ In (ENotified 3 false 2) (hist s) /\ pcs s 2 = WWoken 7 1.
Proof.
  two R. fwd R (@s_notify _ 3 false). fwd R (@s_nenter _ 3 false 2).
  fwd R (@s_signal _ 3 2 2 1). fwd R (@s_leave _ 3 false 2).
  eexists. split; [exact R|]. split; [reflexivity|]. split; [reflexivity|]. split; [|split; [now left|reflexivity]].
  exists [EWait 2 7 1; EWait 1 0 0; ELocked 2 7; ELocked 1 0], [EReleased 2 7 1], [ENotified 3 false 2; EWoke 2 2 1]. reflexivity.
Qed.
Example notify_all_case : exists s, reach s /\ hist s = EReturn 2 7 1 :: ENotified 3 true 2 :: ENotify 3 true 2 :: two_waiters /\
  before (hist s) (EReleased 1 0 0) (ENotify 3 true 2) /\ In (ENotified 3 true 2) (hist s) /\ pcs s 1 = WWoken 0 0 /\ mown s 7 = Some 2 /\ mown s 0 = None.
Proof.
  two R. fwd R (@s_notify _ 3 true). fwd R (@s_nenter _ 3 true 2).
  fwd R (@s_broadcast _ 3 2). fwd R (@s_leave _ 3 true 2).
  fwd R (@s_wokeup _ 2 7 1). fwd R (@s_drop _ 2 7 1). fwd R (@s_relock _ 2 7 1).
  eexists. split; [exact R|]. split; [reflexivity|]. split; [|split; [right; now left|repeat split; reflexivity]].
  exists [EWait 2 7 1; EWait 1 0 0; ELocked 2 7; ELocked 1 0], [EReleased 2 7 1], [EReturn 2 7 1; ENotified 3 true 2]. reflexivity.
Qed.
(** the calls that throw *)
Example wait_throws_case : exists s, reach s /\ hist s = [EFailed 2 7 1; EReleased 2 7 1; ENotOwned 1 0 0; EWait 2 7 1; EWait 1 0 0; ELocked 2 7] /\ mown s 7 = Some 2 /\ mown s 0 = None.
Proof.
  pose proof r_init as R.
  fwd R (@s_lock _ 2 7). fwd R (@s_wait _ 1 0). fwd R (@s_wait _ 2 7).
  fwd R (@s_enter _ 1 0 0). fwd R (@s_notowned _ 1 0 0). fwd R (@s_throw _ 1 0 0).
  fwd R (@s_enter _ 2 7 1). fwd R (@s_release _ 2 7 1). fwd R (@s_sleep _ 2 7 1).
  fwd R (@s_spurious _ 2 7 1). fwd R (@s_wokeup _ 2 7 1). fwd R (@s_drop _ 2 7 1).
  fwd R (@s_fail _ 2 7 1). fwd R (@s_again _ 2 7 1).
  eexists. split; [exact R|]. repeat split; reflexivity.
Qed.

(** ** C139 Destruction *)
(** The documented precondition of the destructor is not enough: thread 1 has been notified and the notification has returned, the object is
    destroyed, and thread 1 goes on to lock the destroyed internal mutex. *)
Theorem condition_any_destruction_refuted : exists s, reach_if all_notified s /\ ub s = true /\
  hist s = [EDestroy 2; ENotified 2 true 1; ENotify 2 true 1; EReleased 1 0 0; EWait 1 0 0; ELocked 1 0].
Proof.
  pose proof (ri_init all_notified) as R.
  nwi R (@s_lock _ 1 0). nwi R (@s_wait _ 1 0). nwi R (@s_enter _ 1 0 0).
  nwi R (@s_release _ 1 0 0). nwi R (@s_sleep _ 1 0 0).
  nwi R (@s_notify _ 2 true). nwi R (@s_nenter _ 2 true 1). nwi R (@s_broadcast _ 2 1). nwi R (@s_leave _ 2 true 1).
  match type of R with reach_if _ ?s => assert (D : forall t, LDestroy 2 = LDestroy t -> all_notified s) end.
  { intros _ _ t. cbn. unfold upd. do 3 (destruct t; [exact I|]). exact I. }
  eassert (R' : reach_if all_notified _) by (eapply ri_step; [exact R|exact eq_refl|exact eq_refl|eapply (@s_destroy _ 2); side|exact D|exact eq_refl]).
  unfold touch in R'. cbn in R'. clear R D.
  nwi R' (@s_wokeup _ 1 0 0).
  eexists. split; [exact R'|]. split; reflexivity.
Qed.
Print Assumptions condition_any_destruction_refuted.
(** It is enough that no call is in progress any more, except that it may be locking the caller's lock again. *)
Theorem condition_any_destruction_partial s : reach_if all_out s -> ub s = false.
Proof. exact (fun H => proj1 (out_safe H)). Qed.
Print Assumptions condition_any_destruction_partial.
(** Thread 2 destroys it while thread 1 is locking its mutex again; thread 1 returns. *)
Example condition_any_destruction_case : exists s, reach_if all_out s /\ alive s = false /\
  hist s = [EReturn 1 0 0; EDestroy 2; ENotified 2 true 1; ENotify 2 true 1; EReleased 1 0 0; EWait 1 0 0; ELocked 1 0].
Proof.
  pose proof (ri_init all_out) as R.
  nwi R (@s_lock _ 1 0). nwi R (@s_wait _ 1 0). nwi R (@s_enter _ 1 0 0). nwi R (@s_release _ 1 0 0). nwi R (@s_sleep _ 1 0 0).
  nwi R (@s_notify _ 2 true). nwi R (@s_nenter _ 2 true 1). nwi R (@s_broadcast _ 2 1). nwi R (@s_leave _ 2 true 1).
  nwi R (@s_wokeup _ 1 0 0). nwi R (@s_drop _ 1 0 0).
  match type of R with reach_if _ ?s => assert (D : forall t, LDestroy 2 = LDestroy t -> all_out s) end.
  { intros _ _ t. cbn. unfold upd. do 3 (destruct t; [exact I|]). exact I. }
  eassert (R' : reach_if all_out _) by (eapply ri_step; [exact R|exact eq_refl|exact eq_refl|eapply (@s_destroy _ 2); side|exact D|exact eq_refl]).
  unfold touch in R'. cbn in R'. clear R D.
  nwi R' (@s_relock _ 1 0 0).
  eexists. split; [exact R'|]. split; reflexivity.
Qed.
