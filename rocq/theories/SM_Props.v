(** * Properties C22 - C27 (shared_mutex)

    Model: SM_Model.v; specification: SM_Spec.v.  [allow] is the set of operations the program uses: any set that
    does not combine upgrade ownership with try_unlock_shared_and_lock_for/until. *)

From Verif Require Import MonWake SM_Model SM_Spec SM_Proofs SM_Writer.

Definition sm_reachable (allow : sop -> bool) (threads : nat) (c : smconf) : Prop :=
  reachable (smprog allow) threads sm_new MNone c.

(** ** C22 *)

Theorem C22_exclusive : forall allow threads c t t' m, sm_compatible allow -> sm_reachable allow threads c ->
  t <> t' -> owns c t MX -> owns c t' m -> m = MNone.
Proof. intros allow threads c t t' m Ha Hr Hne. exact (proj1 (exclusion allow Ha threads c t t' m Hr Hne)). Qed.
Print Assumptions C22_exclusive.

Theorem C22_one_upgrader : forall allow threads c t t' m, sm_compatible allow -> sm_reachable allow threads c ->
  t <> t' -> owns c t MUp -> owns c t' m -> m = MNone \/ m = MSh.
Proof. intros allow threads c t t' m Ha Hr Hne. exact (proj2 (exclusion allow Ha threads c t t' m Hr Hne)). Qed.
Print Assumptions C22_one_upgrader.

(** No assertion of the implementation fails as long as the callers release what they own. *)
Theorem C22_no_assertion_fails : forall allow threads c t, sm_compatible allow -> sm_reachable allow threads c ->
  nth_error (thr c) t <> Some (Crashed sk sop scv mode).
Proof. intros allow threads c t Ha Hr. exact (no_crash allow Ha threads c t Hr). Qed.
Print Assumptions C22_no_assertion_fails.

(** A waiting writer becomes the exclusive owner when the reader leaves. *)
Definition ex_writer : list (label sop unit) :=
  [LCall unit 0 SLockSh; LRun sop 0 [] tt; LCall unit 1 SLock; LRun sop 1 [] tt; LCall unit 0 SUnlockSh;
   LRun sop 0 [1] tt; LRun sop 1 [] tt].
Example C22_example : exists c, sm_reachable no_timed_sh_to_x 3 c /\ sm_compatible no_timed_sh_to_x /\
  owns c 1 MX /\ owns c 0 MNone.
Proof.
  eexists. split; [exists ex_writer; vm_compute; reflexivity|]. split; [left; reflexivity|].
  split; eexists; (split; [reflexivity|]); reflexivity.
Qed.

(** ** C23 *)

Theorem C23_no_lost_wakeup : forall allow threads c t op, sm_compatible allow -> sm_reachable allow threads c ->
  quiescent c -> s_blocked c t op -> lock_wait op = true -> ~ s_available c op.
Proof. intros allow threads c t op Ha Hr. exact (no_lost_wakeup allow Ha threads c t op Hr). Qed.
Print Assumptions C23_no_lost_wakeup.

(** In particular nobody is blocked in any operation when nobody owns the mutex. *)
Theorem C23_free_nobody_blocked : forall allow threads c t op, sm_compatible allow -> sm_reachable allow threads c ->
  quiescent c -> nobody c MX -> nobody c MUp -> nobody c MSh -> ~ s_blocked c t op.
Proof. intros allow threads c t op Ha Hr. exact (free_nobody_blocked allow Ha threads c t op Hr). Qed.
Print Assumptions C23_free_nobody_blocked.

Theorem C23_comes_to_rest : forall allow threads c, sm_compatible allow -> sm_reachable allow threads c ->
  exists ls c', run (smprog allow) c ls = Some c' /\ quiescent c' /\
    Forall (fun lb => match lb with LRun _ _ _ _ => True | _ => False end) ls.
Proof. intros allow threads c Ha Hr. exact (comes_to_rest allow Ha threads c Hr). Qed.
Print Assumptions C23_comes_to_rest.

(** A quiescent configuration with a blocked writer and a blocked reader. *)
Definition ex_blocked : list (label sop unit) :=
  [LCall unit 0 SLockSh; LRun sop 0 [] tt; LCall unit 1 SLock; LRun sop 1 [] tt; LCall unit 2 SLockSh; LRun sop 2 [] tt].
Example C23_example : exists c, sm_reachable no_timed_sh_to_x 3 c /\ quiescent c /\ s_blocked c 1 SLock /\ s_blocked c 2 SLockSh.
Proof.
  eexists. split; [exists ex_blocked; vm_compute; reflexivity|]. split; [reflexivity|].
  split; repeat eexists; reflexivity.
Qed.

(** ** C24 *)

Theorem C24_upgrade_is_atomic : forall allow threads c u t m, sm_compatible allow -> sm_reachable allow threads c ->
  t <> u -> s_inside c u SUpToX -> owns c t m -> m = MNone \/ m = MSh.
Proof. intros allow threads c u t m Ha Hr. exact (upgrade_atomic allow Ha threads c u t m Hr). Qed.
Print Assumptions C24_upgrade_is_atomic.

(** An upgrader waits for a reader while a third thread waits in lock(). *)
Definition ex_upgrade : list (label sop unit) :=
  [LCall unit 0 SLockUp; LRun sop 0 [] tt; LCall unit 1 SLockSh; LRun sop 1 [] tt; LCall unit 0 SUpToX; LRun sop 0 [] tt;
   LCall unit 2 SLock; LRun sop 2 [] tt].
Example C24_example : exists c, sm_reachable no_timed_sh_to_x 3 c /\ s_inside c 0 SUpToX /\ owns c 1 MSh /\ s_inside c 2 SLock.
Proof.
  eexists. split; [exists ex_upgrade; vm_compute; reflexivity|].
  split; [exists MUp; right; repeat eexists; reflexivity|]. split; [eexists; split; reflexivity|].
  exists MNone; right; repeat eexists; reflexivity.
Qed.

(** ** C25 *)

(** With all operations allowed: thread 1 converts its shared ownership with try_unlock_shared_and_lock_until while
    thread 0, the upgrade owner, waits in unlock_upgrade_and_lock; after a spurious wake-up both own the mutex
    exclusively. *)
Definition c25_run : list (label sop unit) :=
  [LCall unit 0 SLockUp; LRun sop 0 [] tt; LCall unit 1 SLockSh; LRun sop 1 [] tt; LCall unit 0 SUpToX; LRun sop 0 [] tt;
   LCall unit 1 STimedShToX; LRun sop 1 [] tt].
Theorem C25_exclusion_refuted : exists c, sm_reachable all_ops 2 c /\ owns c 0 MX /\ owns c 1 MX.
Proof.
  eexists. split; [exists (c25_run ++ [LSpurious sop unit 0; LRun sop 0 [] tt]); vm_compute; reflexivity|].
  split; eexists; split; reflexivity.
Qed.
Print Assumptions C25_exclusion_refuted.

(** Without the spurious wake-up thread 0 stays blocked after thread 1 has released the mutex: its upgrade ownership
    is gone and nobody will wake it. *)
Theorem C25_hang_refuted : exists c, sm_reachable all_ops 2 c /\ quiescent c /\ s_blocked c 0 SUpToX /\ owns c 1 MNone /\
  s_up (sh c) = false /\ s_excl (sh c) = false /\ s_count (sh c) = 0.
Proof.
  eexists. split; [exists (c25_run ++ [LCall unit 1 SUnlock; LRun sop 1 [] tt]); vm_compute; reflexivity|].
  split; [reflexivity|]. split; [repeat eexists; reflexivity|]. split; [eexists; split; reflexivity|]. auto.
Qed.
Print Assumptions C25_hang_refuted.

(** The conversion is safe in programs that never take upgrade ownership. *)
Theorem C25_exclusion_partial : forall allow threads c t t' m, (forall op, s_to op = MUp -> allow op = false) ->
  sm_reachable allow threads c -> t <> t' -> owns c t MX -> owns c t' m -> m = MNone.
Proof. intros allow threads c t t' m Ha Hr Hne. exact (proj1 (exclusion allow (or_intror Ha) threads c t t' m Hr Hne)). Qed.
Print Assumptions C25_exclusion_partial.

Definition no_upgrade (op : sop) : bool := negb (mode_eqb (s_to op) MUp).
Example C25_example : exists c, sm_reachable no_upgrade 2 c /\ (forall op, s_to op = MUp -> no_upgrade op = false) /\ owns c 1 MX.
Proof.
  eexists. split; [exists [LCall unit 1 SLockSh; LRun sop 1 [] tt; LCall unit 1 STimedShToX; LRun sop 1 [] tt]; vm_compute; reflexivity|].
  split; [intros op E; unfold no_upgrade; rewrite E; reflexivity|]. eexists; split; reflexivity.
Qed.

(** ** C26 *)

(** Thread 0 waits in try_unlock_upgrade_and_lock_until; the only other reader leaves; thread 0 is not woken. *)
Theorem C26_timed_upgrade_refuted : exists c, sm_reachable no_timed_sh_to_x 2 c /\ quiescent c /\
  s_blocked c 0 STimedUpToX /\ s_available c STimedUpToX /\ owns c 1 MNone.
Proof.
  eexists. split; [exists [LCall unit 0 SLockUp; LRun sop 0 [] tt; LCall unit 1 SLockSh; LRun sop 1 [] tt;
     LCall unit 0 STimedUpToX; LRun sop 0 [] tt; LCall unit 1 SUnlockSh; LRun sop 1 [] tt]; vm_compute; reflexivity|].
  split; [reflexivity|]. split; [repeat eexists; reflexivity|]. split.
  - intros [|[|t]] (x & Hx & Hm); simpl in Hx; try discriminate; [injection Hx as <-|injection Hx as <-|destruct t; discriminate]; discriminate.
  - eexists; split; reflexivity.
Qed.
Print Assumptions C26_timed_upgrade_refuted.

(** The same for try_unlock_shared_and_lock_upgrade_until: the upgrade owner leaves, the waiter is not woken. *)
Theorem C26_timed_shared_to_upgrade_refuted : exists c, sm_reachable no_timed_sh_to_x 2 c /\ quiescent c /\
  s_blocked c 0 STimedShToUp /\ s_available c STimedShToUp /\ owns c 1 MNone.
Proof.
  eexists. split; [exists [LCall unit 1 SLockUp; LRun sop 1 [] tt; LCall unit 0 SLockSh; LRun sop 0 [] tt;
     LCall unit 0 STimedShToUp; LRun sop 0 [] tt; LCall unit 1 SUnlockUp; LRun sop 1 [] tt]; vm_compute; reflexivity|].
  split; [reflexivity|]. split; [repeat eexists; reflexivity|]. split.
  - repeat split.
    + intros [|[|t]] (x & Hx & Hm); simpl in Hx; try discriminate; [injection Hx as <-|injection Hx as <-|destruct t; discriminate]; discriminate.
    + intros [|[|t]] (x & Hx & Hm); simpl in Hx; try discriminate; [injection Hx as <-|injection Hx as <-|destruct t; discriminate]; discriminate.
    + intros ([|[|t]] & [(l & cv & k & Hx)|(l & cv & k & Hx)]); simpl in Hx; try discriminate; destruct t; discriminate.
  - eexists; split; reflexivity.
Qed.
Print Assumptions C26_timed_shared_to_upgrade_refuted.

(** What remains: the call does not fail while its caller is the only owner. *)
Theorem C26_fails_only_with_other_owner_partial : forall allow threads c lb c' t, sm_compatible allow ->
  sm_reachable allow threads c -> step (smprog allow) c lb = Some c' ->
  hist c' = EDone t STimedUpToX false :: hist c -> exists t', t' <> t /\ owns c' t' MSh.
Proof. intros allow threads c lb c' t Ha Hr. exact (timed_up_fail allow Ha threads c lb c' t Hr). Qed.
Print Assumptions C26_fails_only_with_other_owner_partial.

Example C26_example : exists c lb c', sm_reachable no_timed_sh_to_x 2 c /\ step (smprog no_timed_sh_to_x) c lb = Some c' /\
  hist c' = EDone 0 STimedUpToX false :: hist c.
Proof.
  eexists. exists (LRun sop 0 [] tt). eexists. split; [exists [LCall unit 0 SLockUp; LRun sop 0 [] tt; LCall unit 1 SLockSh; LRun sop 1 [] tt;
     LCall unit 0 STimedUpToX; LRun sop 0 [] tt; LTimeout sop unit 0]; vm_compute; reflexivity|].
  split; [vm_compute; reflexivity|reflexivity].
Qed.

(** ** C27 *)

(** Thread 1 waits in lock() throughout; the reader 0 leaves, the blocked reader 2 is woken as well and gets in first;
    from then on thread 1 waits without blocking anybody: thread 3 gets in at once. *)
Theorem C27_writer_preference_refuted : exists c c' ls, sm_reachable no_timed_sh_to_x 4 c /\ s_blocked c 1 SLock /\
  run (smprog no_timed_sh_to_x) c ls = Some c' /\ s_blocked c' 1 SLock /\
  hist c' = EDone 3 STryLockSh true :: ECall bool 3 STryLockSh :: hist c.
Proof.
  eexists. eexists. exists [LCall unit 3 STryLockSh; LRun sop 3 [] tt].
  split; [exists (ex_blocked ++ [LCall unit 0 SUnlockSh; LRun sop 0 [1] tt; LRun sop 2 [] tt; LRun sop 1 [] tt]); vm_compute; reflexivity|].
  split; [repeat eexists; reflexivity|]. split; [vm_compute; reflexivity|]. split; [repeat eexists; reflexivity|reflexivity].
Qed.
Print Assumptions C27_writer_preference_refuted.

(** What remains: thread [w] calls lock() while [r] has shared ownership and no other thread is inside an operation on
    exclusive or upgrade ownership; then, as long as [r] keeps its ownership and only operations on shared
    ownership are called, no thread newly acquires shared ownership, and [w] waits. *)
Theorem C27_writer_preference_partial : forall allow threads c0 c w r ps ls, sm_compatible allow ->
  r <> w -> sm_reachable allow threads c0 -> nth_error (thr c0) r = Some (Idle sk sop scv MSh) ->
  (forall t op, s_inside c0 t op -> shared_op op = true) ->
  run (smprog allow) c0 (LCall unit w SLock :: LRun sop w ps tt :: ls) = Some c -> Forall (readers_only r) ls ->
  s_inside c w SLock /\
  exists h, hist c = h ++ hist c0 /\ forall t op, In (EDone t op true) h -> acquires_shared op = false.
Proof.
  intros allow threads c0 c w r ps ls Ha Hne Hr. exact (writer_blocks_readers allow Ha threads w r c0 ps ls c Hne Hr).
Qed.
Print Assumptions C27_writer_preference_partial.

Example C27_example : exists c0 c, sm_reachable no_timed_sh_to_x 4 c0 /\ nth_error (thr c0) 0 = Some (Idle sk sop scv MSh) /\
  run (smprog no_timed_sh_to_x) c0
    [LCall unit 1 SLock; LRun sop 1 [] tt; LCall unit 2 STryLockSh; LRun sop 2 [] tt; LCall unit 3 SLockSh; LRun sop 3 [] tt] = Some c.
Proof.
  eexists. eexists. split; [exists [LCall unit 0 SLockSh; LRun sop 0 [] tt]; vm_compute; reflexivity|].
  split; [reflexivity|vm_compute; reflexivity].
Qed.
