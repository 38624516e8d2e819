(** * The Windows shared_mutex: a waiting writer keeps new readers out (C126)

    Model: WS_Model.v; specification: WS_Spec.v, WS_Spec2.v. *)
From Verif Require Import WS_Spec2 WS_Prefer WS_Props.
Set Implicit Arguments.

(** When everything has come to rest and a thread waits in lock(), a thread that then calls lock_shared, try_lock_shared, lock_upgrade, ... does not get its lock
    by running alone.  missing: programs with timed exclusive locks or lock_upgrade(), and those where lock() has thrown *)
Theorem waiting_writer_keeps_readers_out_partial : forall n s t j o s1 s', reach n s ->
  never TimedLock (hist s) -> never LockUpgrade (hist s) -> (forall t, ~ In (ERet t Lock RThrow) (hist s)) ->
  at_rest s -> calling t (hist s) = Some Lock -> for_reading o = true -> exec s (LCall j o) = Some s1 -> alone j s1 s' -> holds j (hist s') = HNone.
Proof. exact writer_keeps_out. Qed.
Print Assumptions waiting_writer_keeps_readers_out_partial.

Definition keeps_readers_out (s : sys) : Prop := at_rest s -> forall t j o s1 s', calling t (hist s) = Some Lock -> for_reading o = true -> exec s (LCall j o) = Some s1 -> alone j s1 s' -> holds j (hist s') = HNone.
Lemma refutes : forall n ls j o,
  match runl (init n) ls with
  | Some s => restb s = true /\ neverb o (hist s) = true /\ calling 1 (hist s) = Some Lock /\ match runl s [LCall j LockShared; LRun j; LRun j] with Some s' => holds j (hist s') = HShared | None => False end
  | None => False
  end -> exists s, reach n s /\ neverb o (hist s) = true /\ ~ keeps_readers_out s.
Proof.
  intros n ls j o H. destruct (runl (init n) ls) as [s|] eqn:E; [|contradiction]. destruct H as (H1 & H0 & H2 & H3). exists s. split; [eapply runl_reach; [constructor|exact E]|]. split; [exact H0|].
  intros K. cbn [runl] in H3. destruct (exec s (LCall j LockShared)) as [s1|] eqn:E1; [|contradiction]. destruct (exec s1 (LRun j)) as [s2|] eqn:E2; [|contradiction]. destruct (exec s2 (LRun j)) as [s3|] eqn:E3; [|contradiction].
  specialize (K (restb_ok s H1) 1 j LockShared s1 s3 H2 eq_refl E1). rewrite K in H3; [discriminate|]. econstructor; [econstructor; [constructor|exact E2]|exact E3].
Qed.

(** Thread 1 waits in lock() and is released, but a thread that waits in lock_upgrade() takes its wake-up: reader 0 then gets in while thread 1 waits *)
Definition stolen_writer : list label :=
  [LCall 0 LockShared; LRun 0; LRun 0; LCall 1 Lock; LRun 1; LRun 1; LCall 0 UnlockShared; LRun 0; LRun 0; LRun 0; LRun 0; LRun 0;
   LCall 2 LockUpgrade; LRun 2; LRun 2; LCall 3 LockUpgrade; LRun 3; LRun 3; LRun 3; LRun 3; LRun 3].
Theorem waiting_writer_keeps_readers_out_upgrade_refuted : exists s, reach 4 s /\ never TimedLock (hist s) /\ ~ keeps_readers_out s.
Proof.
  destruct (@refutes 4 stolen_writer 0 TimedLock) as (s & Hr & E & H); [vm_compute; repeat split|]. exists s. split; [exact Hr|]. split; [|exact H].
  apply neverb_ok; [auto|exact E].
Qed.
Print Assumptions waiting_writer_keeps_readers_out_upgrade_refuted.

(** Thread 1 waits in lock() and is released; reader 2 takes its wake-up, because thread 3 waits in try_lock_for() meanwhile; then 3 gives up *)
Definition given_up_writer : list label :=
  [LCall 0 LockShared; LRun 0; LRun 0; LCall 1 Lock; LRun 1; LRun 1; LCall 2 LockShared; LRun 2; LRun 2; LCall 0 UnlockShared; LRun 0; LRun 0; LRun 0; LRun 0; LRun 0;
   LCall 0 LockShared; LRun 0; LRun 0; LCall 3 TimedLock; LRun 3; LRun 3; LRun 2; LRun 2; LRun 2; LRun 2; LRun 2; LRun 2; LTimeout 3; LRun 3; LRun 3; LRun 3; LRun 3; LRun 2; LRun 2; LRun 2].
Theorem waiting_writer_keeps_readers_out_timed_refuted : exists s, reach 4 s /\ never LockUpgrade (hist s) /\ ~ keeps_readers_out s.
Proof.
  destruct (@refutes 4 given_up_writer 3 LockUpgrade) as (s & Hr & E & H); [vm_compute; repeat split|]. exists s. split; [exact Hr|]. split; [|exact H].
  apply neverb_ok; [auto|exact E].
Qed.
Print Assumptions waiting_writer_keeps_readers_out_timed_refuted.

(** a reader holds the mutex, a writer waits, and thread 2 calls try_lock_shared, which returns false; thread 3 calls lock_shared and blocks *)
Example keeps_out_example : exists s s1 s', reach 3 s /\ never TimedLock (hist s) /\ never LockUpgrade (hist s) /\ (forall t, ~ In (ERet t Lock RThrow) (hist s)) /\ at_rest s /\
  calling 1 (hist s) = Some Lock /\ holds 0 (hist s) = HShared /\ exec s (LCall 2 TryLockShared) = Some s1 /\ alone 2 s1 s' /\ hist s' = ERet 2 TryLockShared (RBool false) :: hist s1.
Proof.
  destruct (@reach_run 3 [LCall 0 LockShared; LRun 0; LRun 0; LCall 1 Lock; LRun 1; LRun 1] (fun s => restb s = true /\ neverb TimedLock (hist s) = true /\ neverb LockUpgrade (hist s) = true /\
    forallb (fun e => match e with ERet _ Lock RThrow => false | _ => true end) (hist s) = true /\ calling 1 (hist s) = Some Lock /\ holds 0 (hist s) = HShared /\
    match exec s (LCall 2 TryLockShared) with
    | Some s1 => match exec s1 (LRun 2) with Some s2 => match exec s2 (LRun 2) with Some s' => hist s' = ERet 2 TryLockShared (RBool false) :: hist s1 | None => False end | None => False end
    | None => False
    end)) as (s & Hr & H1 & H2 & H3 & H4 & H5 & H6 & H7); [vm_compute; repeat split|].
  destruct (exec s (LCall 2 TryLockShared)) as [s1|] eqn:E1; [|contradiction]. destruct (exec s1 (LRun 2)) as [s2|] eqn:E2; [|contradiction]. destruct (exec s2 (LRun 2)) as [s3|] eqn:E3; [|contradiction].
  exists s, s1, s3. split; [exact Hr|]. split; [apply neverb_ok; auto|]. split; [apply neverb_ok; auto|].
  split; [intros t Hi; rewrite forallb_forall in H4; discriminate (H4 _ Hi)|]. split; [apply restb_ok; exact H1|]. split; [exact H5|]. split; [exact H6|]. split; [exact E1|].
  split; [econstructor; [econstructor; [constructor|exact E2]|exact E3]|exact H7].
Qed.
