(** * The Windows shared_mutex: the theorems (C104-C107) *)
From Verif Require Import WS_Errors.
Set Implicit Arguments.

(** Running a list of labels. *)
Fixpoint runl (s : sys) (ls : list label) : option sys :=
  match ls with [] => Some s | l :: ls' => match exec s l with Some s' => runl s' ls' | None => None end end.
Lemma runl_reach : forall n ls s s', reach n s -> runl s ls = Some s' -> reach n s'.
Proof.
  intros n. induction ls as [|l ls IH]; intros s s' Hr H; cbn in H; [congruence|]. destruct (exec s l) as [s1|] eqn:E; [|discriminate]. eapply IH; [econstructor; eauto|exact H].
Qed.
Lemma reach_run : forall n ls (P : sys -> Prop), match runl (init n) ls with Some s => P s | None => False end -> exists s, reach n s /\ P s.
Proof. intros n ls P H. destruct (runl (init n) ls) as [s|] eqn:E; [|contradiction]. exists s. split; [eapply runl_reach; [constructor|exact E]|exact H]. Qed.
Definition restb (s : sys) : bool := forallb (fun t => match exec s (LRun t) with None => true | Some _ => false end) (seq 0 (length (thrs s))).
Lemma restb_ok : forall s, restb s = true -> at_rest s.
Proof.
  intros s H t. unfold restb in H. rewrite forallb_forall in H. destruct (nth_error (thrs s) t) as [x|] eqn:E; [|cbn; now rewrite E].
  specialize (H t). destruct (exec s (LRun t)); [|reflexivity]. discriminate H. apply in_seq. split; [lia|]. cbn. apply nth_error_Some. congruence.
Qed.
Definition neverb (o : op) (h : list event) : bool := forallb (fun e => match e with ECall _ o' => negb (if match o, o' with
  | Lock, Lock | TimedLock, TimedLock | LockUpgrade, LockUpgrade => true | _, _ => false end then true else false) | _ => true end) h.
Lemma neverb_ok : forall o h, (o = Lock \/ o = TimedLock \/ o = LockUpgrade) -> neverb o h = true -> never o h.
Proof. intros o h Ho H t Hi. unfold neverb in H. rewrite forallb_forall in H. specialize (H _ Hi). destruct Ho as [->|[->| ->]]; discriminate. Qed.

(** The next step of thread t makes its call of o throw. *)
Definition op_code (o : op) : nat := match o with Lock => 0 | LockShared => 1 | _ => 2 end.
Definition throwsb (s : sys) (t : nat) (o : op) : bool :=
  match exec s (LRun t) with
  | Some s' => match hist s' with ERet t' o' RThrow :: _ => (t =? t') && (op_code o =? op_code o') && (length (hist s') =? S (length (hist s))) | _ => false end
  | None => false
  end.
Lemma throwsb_ok : forall s t o, o = Lock \/ o = LockShared -> throwsb s t o = true -> exists s', exec s (LRun t) = Some s' /\ hist s' = ERet t o RThrow :: hist s.
Proof.
  intros s t o Ho H. unfold throwsb in H. destruct (exec s (LRun t)) as [s'|] eqn:E; [|discriminate]. exists s'. split; [reflexivity|].
  destruct (exec_hist _ _ E) as (u & _ & Q). destruct (hist s') as [|[|t' o' []] h] eqn:Eh; try discriminate.
  apply andb_true_iff in H. destruct H as [H H3]. apply andb_true_iff in H. destruct H as [H1 H2]. apply Nat.eqb_eq in H1, H2, H3. subst t'.
  assert (o' = o) by (destruct Ho; subst o; destruct o'; cbn in H2; congruence). subst o'.
  destruct Q as [Q|(e & Q & _)]; [rewrite Q in H3; lia|]. injection Q as <- ->. reflexivity.
Qed.

(** C104.  For any number of threads and any schedule, no two threads hold incompatible locks: nobody shares the mutex with the holder of
    an exclusive lock, and there is at most one holder of an upgrade lock; conversions never let go of what both modes have in common. *)
Theorem shared_mutex_win_exclusion : forall n s i j, reach n s -> i <> j -> compatible (holds i (hist s)) (holds j (hist s)) = true.
Proof. exact exclusion. Qed.
Print Assumptions shared_mutex_win_exclusion.

(** C104.  try_lock() returns false only if at some moment of the call another thread holds the mutex or is releasing it. *)
Theorem shared_mutex_win_try_lock : forall n s l s' t, reach n s -> exec s l = Some s' -> hist s' = ERet t TryLock (RBool false) :: hist s ->
  exists s0 j, reach n s0 /\ within t s0 s /\ calling t (hist s0) = Some TryLock /\ j <> t /\
    (holds j (hist s0) <> HNone \/ exists o, calling j (hist s0) = Some o /\ acquired o = HNone).
Proof. exact try_lock_false. Qed.
Print Assumptions shared_mutex_win_try_lock.

(** C105.  No wake-up is lost: when everything has come to rest, a thread is blocked in a call only if another thread
    holds the mutex and is not in a call. *)
Theorem shared_mutex_win_no_lost_wakeup : forall n s t, reach n s -> at_rest s -> blocked s t ->
  exists j, j <> t /\ holds j (hist s) <> HNone /\ calling j (hist s) = None.
Proof. exact no_lost_wakeup. Qed.
Print Assumptions shared_mutex_win_no_lost_wakeup.

(** C106.  In programs that use neither timed exclusive locks nor lock_upgrade(), readers wait for writers only: when everything has come to rest, a
    thread is blocked in lock_shared() only if another holds an exclusive lock or waits for one. *)
Theorem readers_wait_for_writers_partial : forall n s t, reach n s -> never TimedLock (hist s) -> never LockUpgrade (hist s) ->
  at_rest s -> blocked s t -> (calling t (hist s) = Some LockShared \/ calling t (hist s) = Some TimedLockShared) ->
  exists j, j <> t /\ (holds j (hist s) = HExclusive \/ calling j (hist s) = Some Lock).
Proof. exact readers_wait. Qed.
Print Assumptions readers_wait_for_writers_partial.

(** The statement that is false of other programs, for any number of threads *)
Definition readers_wait_for_writers_in (s : sys) : Prop :=
  at_rest s -> forall t, blocked s t -> calling t (hist s) = Some LockShared ->
  exists j, holds j (hist s) = HExclusive \/ calling j (hist s) = Some Lock \/ calling j (hist s) = Some TimedLock.

(** Thread 0 reads; 1 waits in try_lock_for, so readers 2 and 3 wait behind it; its time-out wakes only one of them. *)
Definition give_up : list label :=
  [LCall 0 LockShared; LRun 0; LRun 0; LCall 1 TimedLock; LRun 1; LRun 1; LCall 2 LockShared; LRun 2; LRun 2; LCall 3 LockShared; LRun 3; LRun 3;
   LTimeout 1; LRun 1; LRun 1; LRun 1; LRun 1; LRun 2; LRun 2; LRun 2].
(** C106.  After try_lock_for() has given up, readers that waited behind it stay blocked although the mutex is held by readers only. *)
Theorem readers_wait_for_writers_timed_refuted : exists s, reach 4 s /\ never LockUpgrade (hist s) /\ ~ readers_wait_for_writers_in s.
Proof.
  destruct (@reach_run 4 give_up (fun s => restb s = true /\ neverb LockUpgrade (hist s) = true /\ calling 3 (hist s) = Some LockShared /\
    forall j, holds j (hist s) <> HExclusive /\ calling j (hist s) <> Some Lock /\ calling j (hist s) <> Some TimedLock)) as (s & Hr & H1 & H2 & H3 & H4).
  { vm_compute. split; [reflexivity|]. split; [reflexivity|]. split; [reflexivity|]. intros j. destruct j as [|[|[|[|j]]]]; repeat split; discriminate. }
  exists s. split; [exact Hr|]. split; [apply neverb_ok; auto|]. intros H. apply restb_ok in H1. destruct (H H1 3) as (j & Hj); [split; [congruence|apply H1]|exact H3|]. destruct (H4 j) as (A & B & C). tauto.
Qed.
Print Assumptions readers_wait_for_writers_timed_refuted.

(** Thread 1 has been released by thread 0 but has not waited for its semaphore yet; 2 holds an upgrade lock; 3 waits for one and takes 1's wake-up. *)
Definition stolen : list label :=
  [LCall 0 Lock; LRun 0; LRun 0; LCall 1 LockShared; LRun 1; LRun 1; LCall 0 Unlock; LRun 0; LRun 0; LRun 0; LRun 0;
   LCall 2 LockUpgrade; LRun 2; LRun 2; LCall 3 LockUpgrade; LRun 3; LRun 3; LRun 3; LRun 3; LRun 3].
(** C106.  A thread that waits in lock_upgrade() can take the wake-up of a reader, which stays blocked although the mutex is held by an upgrade lock only. *)
Theorem readers_wait_for_writers_upgrade_refuted : exists s, reach 4 s /\ never TimedLock (hist s) /\ ~ readers_wait_for_writers_in s.
Proof.
  destruct (@reach_run 4 stolen (fun s => restb s = true /\ neverb TimedLock (hist s) = true /\ calling 1 (hist s) = Some LockShared /\
    forall j, holds j (hist s) <> HExclusive /\ calling j (hist s) <> Some Lock /\ calling j (hist s) <> Some TimedLock)) as (s & Hr & H1 & H2 & H3 & H4).
  { vm_compute. split; [reflexivity|]. split; [reflexivity|]. split; [reflexivity|]. intros j. destruct j as [|[|[|[|j]]]]; repeat split; discriminate. }
  exists s. split; [exact Hr|]. split; [apply neverb_ok; auto|]. intros H. apply restb_ok in H1. destruct (H H1 1) as (j & Hj); [split; [congruence|apply H1]|exact H3|]. destruct (H4 j) as (A & B & C). tauto.
Qed.
Print Assumptions readers_wait_for_writers_upgrade_refuted.

(** C107.  In programs without timed exclusive locks, lock() throws lock_error only if at some moment of the call more than 127 threads are in lock(). *)
Theorem lock_error_only_when_full_partial : forall n s l s' t, reach n s -> never TimedLock (hist s) ->
  exec s l = Some s' -> hist s' = ERet t Lock RThrow :: hist s ->
  exists s0, reach n s0 /\ within t s0 s /\ calling t (hist s0) = Some Lock /\ 127 < how_many n (locking (hist s0)).
Proof. exact lock_error_lock. Qed.
Print Assumptions lock_error_only_when_full_partial.

(** C107.  In programs without timed locks and without unlock_upgrade(), lock_shared() throws lock_error only if at some moment of the call more than 2047
    threads hold the mutex or are in a call on it. *)
Theorem lock_shared_error_only_when_full_partial : forall n s l s' t, reach n s ->
  never TimedLock (hist s) -> never TimedLockShared (hist s) -> never UnlockUpgrade (hist s) ->
  exec s l = Some s' -> hist s' = ERet t LockShared RThrow :: hist s ->
  exists s0, reach n s0 /\ within t s0 s /\ calling t (hist s0) = Some LockShared /\ 2047 < how_many n (busy (hist s0)).
Proof. exact lock_error_shared. Qed.
Print Assumptions lock_shared_error_only_when_full_partial.

(** A time-out of try_lock_for() in which a wake-up is lost for good: thread 0 unlocks and locks again before thread 1 looks again. *)
Definition leak : list label :=
  [LCall 0 LockShared; LRun 0; LRun 0; LCall 1 TimedLock; LRun 1; LRun 1; LTimeout 1;
   LCall 0 UnlockShared; LRun 0; LRun 0; LRun 0; LRun 0; LRun 0; LCall 0 LockShared; LRun 0; LRun 0; LRun 1; LCall 0 UnlockShared; LRun 0; LRun 0; LRun 0].
Definition leaks : list label :=
  concat (repeat leak 127) ++ [LCall 0 LockShared; LRun 0; LRun 0; LCall 1 Lock; LRun 1; LRun 1] ++ concat (repeat [LRun 1; LRun 1; LRun 1] 127).
(** C107.  With timed locks it is false: with only two threads, lock() throws lock_error. *)
Theorem lock_error_only_when_full_refuted :
  ~ (forall n s l s' t, reach n s -> exec s l = Some s' -> hist s' = ERet t Lock RThrow :: hist s ->
     exists s0, reach n s0 /\ within t s0 s /\ calling t (hist s0) = Some Lock /\ 127 < how_many n (locking (hist s0))).
Proof.
  intros H. destruct (@reach_run 2 (removelast leaks) (fun s => throwsb s 1 Lock = true)) as (s & Hr & Ht).
  { vm_compute. reflexivity. }
  destruct (throwsb_ok s 1 (or_introl eq_refl) Ht) as (s' & H1 & H2).
  destruct (H 2 s (LRun 1) s' 1 Hr H1 H2) as (s0 & _ & _ & _ & L). cbn in L. destruct (locking (hist s0) 1), (locking (hist s0) 0); cbn in L; lia.
Qed.
Print Assumptions lock_error_only_when_full_refuted.

(** ** The hypotheses are met *)
(** a writer holds the mutex, a reader and a writer are blocked *)
Example rest_example : exists s, reach 3 s /\ never TimedLock (hist s) /\ never LockUpgrade (hist s) /\ at_rest s /\ blocked s 1 /\ blocked s 2 /\
  calling 1 (hist s) = Some LockShared /\ holds 0 (hist s) = HExclusive.
Proof.
  destruct (@reach_run 3 [LCall 0 Lock; LRun 0; LRun 0; LCall 1 LockShared; LRun 1; LRun 1; LCall 2 Lock; LRun 2; LRun 2]
    (fun s => restb s = true /\ neverb TimedLock (hist s) = true /\ neverb LockUpgrade (hist s) = true /\ calling 1 (hist s) = Some LockShared /\ calling 2 (hist s) = Some Lock /\ holds 0 (hist s) = HExclusive))
    as (s & Hr & H1 & H2 & H3 & H4 & H5 & H6); [vm_compute; repeat split|].
  apply restb_ok in H1. exists s. unfold blocked. rewrite H4, H5, H6. repeat split; auto; try discriminate; apply neverb_ok; auto.
Qed.
(** two readers and an upgrade lock at a time; the upgrade lock is turned into an exclusive one when the readers have left *)
Example upgrade_example : exists s, reach 3 s /\ holds 2 (hist s) = HExclusive /\ holds 0 (hist s) = HNone /\ holds 1 (hist s) = HNone.
Proof.
  apply reach_run with (ls := [LCall 0 LockShared; LRun 0; LRun 0; LCall 1 LockShared; LRun 1; LRun 1; LCall 2 LockUpgrade; LRun 2; LRun 2;
    LCall 2 UnlockUpgradeAndLock; LRun 2; LRun 2; LCall 0 UnlockShared; LRun 0; LRun 0; LRun 0; LCall 1 UnlockShared; LRun 1; LRun 1; LRun 1; LRun 1; LRun 2]).
  vm_compute. repeat split.
Qed.
(** try_lock() fails against a reader *)
Example try_lock_example : exists s s', reach 2 s /\ exec s (LRun 1) = Some s' /\ hist s' = ERet 1 TryLock (RBool false) :: hist s.
Proof.
  destruct (@reach_run 2 [LCall 0 LockShared; LRun 0; LRun 0; LCall 1 TryLock; LRun 1] (fun s => exists s', exec s (LRun 1) = Some s' /\ hist s' = ERet 1 TryLock (RBool false) :: hist s)) as (s & Hr & s' & H1 & H2).
  - vm_compute. eexists. split; reflexivity.
  - eauto.
Qed.
(** with 129 threads, 127 of which wait in lock(), the last one gets a lock_error *)
Example full_example : exists s s', reach 129 s /\ never TimedLock (hist s) /\ exec s (LRun 128) = Some s' /\ hist s' = ERet 128 Lock RThrow :: hist s.
Proof.
  destruct (@reach_run 129 (removelast (flat_map (fun t => [LCall t Lock; LRun t; LRun t]) (seq 0 129)))
    (fun s => neverb TimedLock (hist s) && throwsb s 128 Lock = true)) as (s & Hr & H); [vm_compute; reflexivity|].
  apply andb_true_iff in H. destruct H as [H0 H1]. destruct (throwsb_ok s 128 (or_introl eq_refl) H1) as (s' & H2 & H3).
  exists s, s'. split; [exact Hr|]. split; [apply neverb_ok; auto|auto].
Qed.
(** with 2048 threads, 2047 of which read, the last one gets a lock_error *)
Example full_shared_example : exists s s', reach 2048 s /\ never TimedLock (hist s) /\ never TimedLockShared (hist s) /\ never UnlockUpgrade (hist s) /\
  exec s (LRun 2047) = Some s' /\ hist s' = ERet 2047 LockShared RThrow :: hist s.
Proof.
  destruct (@reach_run 2048 (removelast (flat_map (fun t => [LCall t LockShared; LRun t; LRun t]) (seq 0 2048)))
    (fun s => forallb (fun e => match e with ECall _ LockShared => true | ECall _ _ => false | _ => true end) (hist s) && throwsb s 2047 LockShared = true)) as (s & Hr & H); [vm_compute; reflexivity|].
  apply andb_true_iff in H. destruct H as [H0 H1]. destruct (throwsb_ok s 2047 (or_intror eq_refl) H1) as (s' & H2 & H3).
  rewrite forallb_forall in H0. exists s, s'. split; [exact Hr|]. repeat split; auto; intros t Hi; specialize (H0 _ Hi); discriminate.
Qed.
