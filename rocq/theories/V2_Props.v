(** * Properties C28, C29, C67 (thread_v2::shared_mutex and thread_v2::upgrade_mutex)

    Model: V2_Model.v; specification: V2_Spec.v.  [M] is the largest value of the reader count, [allow] the set of
    operations the program uses, [intr] whether it interrupts threads. *)

From Verif Require Import MonWake V2_Model V2_Spec V2_Proofs V2_Limit.

Definition v2_reachable (M : nat) (allow : sop -> bool) (intr : bool) (threads : nat) (c : vconf) : Prop :=
  reachable (v2prog M allow intr) threads v2_new MNone c.

(** ** C28 *)

Theorem C28_exclusive : forall M allow threads c t t' m, 1 <= M -> v2_reachable M allow false threads c ->
  t <> t' -> v_owns c t MX -> v_owns c t' m -> m = MNone.
Proof. intros M allow threads c t t' m HM Hr Hne. exact (proj1 (exclusion M HM allow threads c t t' m Hr Hne)). Qed.
Print Assumptions C28_exclusive.

Theorem C28_one_upgrader : forall M allow threads c t t' m, 1 <= M -> v2_reachable M allow false threads c ->
  t <> t' -> v_owns c t MUp -> v_owns c t' m -> m = MNone \/ m = MSh.
Proof. intros M allow threads c t t' m HM Hr Hne. exact (proj2 (exclusion M HM allow threads c t t' m Hr Hne)). Qed.
Print Assumptions C28_one_upgrader.

(** While a thread converts upgrade to exclusive ownership nobody else acquires exclusive or upgrade ownership. *)
Theorem C28_upgrade_keeps_others_out : forall M allow threads c u t m op, 1 <= M -> v2_reachable M allow false threads c ->
  t <> u -> op = SUpToX \/ op = STimedUpToX -> v_inside c u op -> v_owns c t m -> m = MNone \/ m = MSh.
Proof. intros M allow threads c u t m op HM Hr. exact (upgrade_atomic M HM allow threads c u t m op Hr). Qed.
Print Assumptions C28_upgrade_keeps_others_out.

Theorem C28_count_fits : forall M allow threads c, 1 <= M -> v2_reachable M allow false threads c -> v_nr (sh c) <= M.
Proof. intros M allow threads c HM Hr. exact (field M HM allow threads c Hr). Qed.
Print Assumptions C28_count_fits.

Theorem C28_no_assertion_fails : forall M allow threads c t, 1 <= M -> v2_reachable M allow false threads c ->
  nth_error (thr c) t <> Some (Crashed vk sop vcv mode).
Proof. intros M allow threads c t HM Hr. exact (no_crash M HM allow threads c t Hr). Qed.
Print Assumptions C28_no_assertion_fails.

(** A reader delays the upgrade of another thread, then leaves. *)
Definition ex28 : list (label sop unit) :=
  [LCall unit 0 SLockSh; LRun sop 0 [] tt; LCall unit 1 SLockUp; LRun sop 1 [] tt; LCall unit 1 SUpToX; LRun sop 1 [] tt;
   LCall unit 0 SUnlockSh; LRun sop 0 [1] tt; LRun sop 1 [] tt].
Example C28_example : exists c, v2_reachable 7 (fun _ => true) false 3 c /\ v_owns c 1 MX /\ v_owns c 0 MNone.
Proof. eexists. split; [exists ex28; vm_compute; reflexivity|]. split; eexists; (split; [reflexivity|]); reflexivity. Qed.

(** ** C67 *)

(** When no thread can run, a blocked thread waits for another thread that owns the mutex and is not blocked itself
    (except in a timed conversion from shared to upgrade ownership, which ends at its deadline). *)
Theorem C67_no_lost_wakeup : forall M allow threads c t op, 1 <= M -> threads <= M ->
  (forall op, allow op = true -> untimed_x op = true) -> v2_reachable M allow false threads c ->
  quiescent c -> v_blocked c t op -> op <> STimedShToUp ->
  exists t' m, t' <> t /\ v_owns c t' m /\ m <> MNone /\ forall op', v_blocked c t' op' -> op' = STimedShToUp.
Proof. intros M allow threads c t op HM Hn Ha Hr. exact (no_lost_wakeup M HM allow Ha threads Hn c t op Hr). Qed.
Print Assumptions C67_no_lost_wakeup.

(** A blocked reader is held back by an exclusive owner or by a thread waiting for exclusive ownership. *)
Theorem C67_reader_waits_for_writer : forall M allow threads c t op, 1 <= M -> threads <= M ->
  (forall op, allow op = true -> untimed_x op = true) -> v2_reachable M allow false threads c ->
  quiescent c -> v_blocked c t op -> op = SLockSh \/ op = STimedLockSh ->
  exists t', t' <> t /\ (v_owns c t' MX \/ v_blocked c t' SLock \/ v_blocked c t' SUpToX).
Proof. intros M allow threads c t op HM Hn Ha Hr. exact (reader_held_back M HM allow Ha threads Hn c t op Hr). Qed.
Print Assumptions C67_reader_waits_for_writer.

Theorem C67_comes_to_rest : forall M allow threads c, 1 <= M -> v2_reachable M allow false threads c ->
  exists ls c', run (v2prog M allow false) c ls = Some c' /\ quiescent c' /\
    Forall (fun lb => match lb with LRun _ _ _ _ => True | _ => False end) ls.
Proof. intros M allow threads c HM Hr. exact (comes_to_rest M HM allow threads c Hr). Qed.
Print Assumptions C67_comes_to_rest.

(** A quiescent configuration with a blocked writer and a blocked reader. *)
Definition ex67 : list (label sop unit) :=
  [LCall unit 0 SLockSh; LRun sop 0 [] tt; LCall unit 1 SLock; LRun sop 1 [] tt; LCall unit 2 SLockSh; LRun sop 2 [] tt].
Example C67_example : exists c, v2_reachable 7 untimed_x false 3 c /\ quiescent c /\ v_blocked c 1 SLock /\ v_blocked c 2 SLockSh.
Proof.
  eexists. split; [exists ex67; vm_compute; reflexivity|]. split; [repeat constructor|].
  split; do 3 eexists; reflexivity.
Qed.

(** The limit on the number of readers (2^30 on common machines).  With more threads than that, the statement is false: the notification sent when the
    count drops below the limit wakes one reader only, and no further one is sent (shared_mutex 797-801). *)
Definition ex67_limit : list (label sop unit) :=
  [LCall unit 0 SLockSh; LRun sop 0 [] tt; LCall unit 1 SLockSh; LRun sop 1 [] tt; LCall unit 2 SLockSh; LRun sop 2 [] tt;
   LCall unit 3 SLockSh; LRun sop 3 [] tt; LCall unit 0 SUnlockSh; LRun sop 0 [2] tt; LCall unit 1 SUnlockSh; LRun sop 1 [] tt;
   LRun sop 2 [] tt; LCall unit 2 SUnlockSh; LRun sop 2 [] tt].
Theorem C67_more_threads_than_limit_refuted : exists c, v2_reachable 2 v_shared_mutex_op false 4 c /\ quiescent c /\ v_blocked c 3 SLockSh /\ v_nobody c.
Proof.
  eexists. split; [exists ex67_limit; cbv; reflexivity|]. split; [repeat constructor|]. split; [do 3 eexists; reflexivity|].
  intros [|[|[|[|t]]]] mo (x & Hx & Ho); simpl in Hx; try (injection Hx as <-; congruence). destruct t; discriminate.
Qed.
Print Assumptions C67_more_threads_than_limit_refuted.

(** What holds at the limit: a reader that leaves when the count is at the limit and no writer waits inside wakes a thread blocked at the entrance. *)
Theorem C67_leaving_full_wakes_partial : forall M allow threads c c' t ps k0 t1 op1 l1 k1, 1 <= M -> v2_reachable M allow false threads c ->
  nth_error (thr c) t = Some (Ready vcv MSh SUnlockSh k0) -> v_nr (sh c) = M -> v_we (sh c) = false ->
  nth_error (thr c) t1 = Some (Asleep l1 op1 G1 k1) -> step (v2prog M allow false) c (LRun sop t ps tt) = Some c' ->
  exists t' op l k, nth_error (thr c) t' = Some (Asleep l op G1 k) /\ nth_error (thr c') t' = Some (Ready vcv l op k).
Proof. intros M allow threads c c' t ps k0 t1 op1 l1 k1 HM Hr. exact (leaving_full M HM allow threads c c' t ps k0 t1 op1 l1 k1 Hr). Qed.
Print Assumptions C67_leaving_full_wakes_partial.

Example C67_limit_example : exists c c', v2_reachable 2 v_shared_mutex_op false 4 c /\ nth_error (thr c) 0 = Some (Ready vcv MSh SUnlockSh (VB SUnlockSh)) /\ v_nr (sh c) = 2 /\ v_we (sh c) = false /\ v_blocked c 2 SLockSh /\ step (v2prog 2 v_shared_mutex_op false) c (LRun sop 0 [2] tt) = Some c'.
Proof.
  eexists. eexists. split; [exists (firstn 9 ex67_limit); cbv; reflexivity|]. split; [reflexivity|]. split; [reflexivity|]. split; [reflexivity|].
  split; [do 3 eexists; reflexivity|reflexivity].
Qed.

(** ** C29 *)

(** What the property asks for: once the timed attempt has given up, a thread blocked in a lock operation is held
    back by somebody. *)
Definition nobody_stuck (M : nat) (allow : sop -> bool) (intr : bool) : Prop :=
  forall threads c t, threads <= M -> v2_reachable M allow intr threads c -> quiescent c -> v_nobody c ->
    ~ v_blocked c t SLock /\ ~ v_blocked c t SLockSh.

(** thread_v2::shared_mutex: try_lock_until that times out behind a reader leaves other readers asleep for ever. *)
Definition ex29_lock : list (label sop unit) :=
  [LCall unit 0 SLockSh; LRun sop 0 [] tt; LCall unit 1 STimedLock; LRun sop 1 [] tt; LCall unit 2 SLockSh; LRun sop 2 [] tt;
   LTimeout sop unit 1; LRun sop 1 [] tt; LCall unit 0 SUnlockSh; LRun sop 0 [] tt].
Theorem C29_timed_lock_refuted : forall M, 3 <= M -> ~ nobody_stuck M v_shared_mutex_op false.
Proof.
  intros M HM H. destruct M as [|[|[|m]]]; try lia.
  assert (HR : exists c, v2_reachable (S (S (S m))) v_shared_mutex_op false 3 c /\ quiescent c /\ v_nobody c /\ v_blocked c 2 SLockSh).
  { eexists. split; [exists ex29_lock; cbv; reflexivity|]. split; [repeat constructor|]. split.
    - intros [|[|[|t]]] mo (x & Hx & Ho); simpl in Hx; try (injection Hx as <-; congruence). destruct t; discriminate.
    - do 3 eexists. reflexivity. }
  destruct HR as (c & Hr & Hq & Hn & Hb). exact (proj2 (H 3 c 2 HM Hr Hq Hn) Hb).
Qed.
Print Assumptions C29_timed_lock_refuted.

(** thread_v2::upgrade_mutex: try_unlock_upgrade_and_lock_until that times out after a reader left counts that reader
    for ever; no writer gets the mutex again. *)
Definition ex29_up : list (label sop unit) :=
  [LCall unit 0 SLockSh; LRun sop 0 [] tt; LCall unit 2 SLockSh; LRun sop 2 [] tt; LCall unit 1 SLockUp; LRun sop 1 [] tt;
   LCall unit 1 STimedUpToX; LRun sop 1 [] tt; LCall unit 2 SUnlockSh; LRun sop 2 [] tt; LTimeout sop unit 1; LRun sop 1 [] tt;
   LCall unit 0 SUnlockSh; LRun sop 0 [] tt; LCall unit 1 SUnlockUp; LRun sop 1 [] tt; LCall unit 0 SLock; LRun sop 0 [] tt].
Theorem C29_count_refuted : forall M, 5 <= M -> ~ nobody_stuck M (fun op => match op with STimedLock | STimedShToX => false | _ => true end) false.
Proof.
  intros M HM H. destruct M as [|[|[|[|[|m]]]]]; try lia.
  match type of H with nobody_stuck ?M' ?a' _ =>
  assert (HR : exists c, v2_reachable M' a' false 3 c /\ quiescent c /\ v_nobody c /\ v_blocked c 0 SLock) end.
  { eexists. split; [exists ex29_up; cbv; reflexivity|]. split; [repeat constructor|]. split.
    - intros [|[|[|t]]] mo (x & Hx & Ho); simpl in Hx; try (injection Hx as <-; congruence). destruct t; discriminate.
    - do 3 eexists. reflexivity. }
  destruct HR as (c & Hr & Hq & Hn & Hb). refine (proj1 (H 3 c 0 _ Hr Hq Hn) Hb). lia.
Qed.
Print Assumptions C29_count_refuted.

(** Without timed operations but with interruption: a writer interrupted behind a reader closes the mutex for ever. *)
Definition ex29_intr : list (label sop unit) :=
  [LCall unit 0 SLockSh; LRun sop 0 [] tt; LCall unit 1 SLock; LRun sop 1 [] tt; LIntr sop unit 1; LRun sop 1 [] tt;
   LCall unit 0 SUnlockSh; LRun sop 0 [] tt; LCall unit 2 SLockSh; LRun sop 2 [] tt].
Theorem C29_interrupted_lock_refuted : forall M, 3 <= M -> ~ nobody_stuck M untimed_x true.
Proof.
  intros M HM H. destruct M as [|[|[|m]]]; try lia.
  assert (HR : exists c, v2_reachable (S (S (S m))) untimed_x true 3 c /\ quiescent c /\ v_nobody c /\ v_blocked c 2 SLockSh).
  { eexists. split; [exists ex29_intr; cbv; reflexivity|]. split; [repeat constructor|]. split.
    - intros [|[|[|t]]] mo (x & Hx & Ho); simpl in Hx; try (injection Hx as <-; congruence). destruct t; discriminate.
    - do 3 eexists. reflexivity. }
  destruct HR as (c & Hr & Hq & Hn & Hb). exact (proj2 (H 3 c 2 HM Hr Hq Hn) Hb).
Qed.
Print Assumptions C29_interrupted_lock_refuted.

(** What holds.  The owner count: without timed conversions to exclusive ownership (so in particular for
    thread_v2::shared_mutex, timed operations included), the mutex is as new when everybody has released it. *)
Theorem C29_released_is_as_new_partial : forall M allow threads c, 1 <= M ->
  (forall op, allow op = true -> op <> STimedShToX /\ op <> STimedUpToX) -> v2_reachable M allow false threads c ->
  (forall t x, nth_error (thr c) t = Some x -> x = Idle vk sop vcv MNone) -> sh c = v2_new.
Proof. intros M allow threads c HM Ha Hr. exact (all_released M HM allow Ha threads c Hr). Qed.
Print Assumptions C29_released_is_as_new_partial.

(** Threads that arrive after the attempt are not held back by it: try_lock_shared is refused only because of an
    exclusive owner, an attempt still in progress, or a full count. *)
Theorem C29_new_reader_admitted_partial : forall M allow threads c t c1 c2, 1 <= M -> v2_reachable M allow false threads c ->
  step (v2prog M allow false) c (LCall unit t STryLockSh) = Some c1 ->
  step (v2prog M allow false) c1 (LRun sop t [] tt) = Some c2 -> hist c2 = EDone t STryLockSh VFail :: hist c1 ->
  v_nr (sh c) = M \/ exists t', v_owns c t' MX \/ exists op, wants_x op = true /\ v_inside c t' op.
Proof. intros M allow threads c t c1 c2 HM Hr. exact (try_refused M allow threads c t c1 c2 HM Hr). Qed.
Print Assumptions C29_new_reader_admitted_partial.

Example C29_example : exists c, v2_reachable 7 v_shared_mutex_op false 3 c /\ v_owns c 0 MSh /\ v_owns c 1 MNone /\
  In (EDone 1 STimedLock VFail) (hist c).
Proof.
  eexists. split; [exists (firstn 8 ex29_lock); vm_compute; reflexivity|].
  split; [eexists; split; reflexivity|]. split; [eexists; split; reflexivity|]. simpl. auto.
Qed.
