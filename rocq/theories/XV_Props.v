(** * C158: the Windows shared_mutex when threads do not see each other's writes at once

    Model: XV_Model.v; specification: XV_Spec.v and, for what a thread holds, WS_Spec.v. *)
From Verif Require Import WS_Errors XV_Model XV_Spec XV_Proofs XV_Try XV_Wake XV_Runs.

(** For any number of threads, any calls, any schedule and any stale reads, no two threads hold incompatible
    locks. *)
Theorem C158_exclusion : forall n s i j, reaches n s -> i <> j ->
  compatible (holds i (hist (base s))) (holds j (hist (base s))) = true.
Proof. exact exclusion. Qed.
Print Assumptions C158_exclusion.

(** What owners do with the data is free of data races: a writer sees all that was done before, also by the
    readers it has waited for, and a reader sees all writes before it. *)
Theorem C158_race_free : forall n s, reaches n s -> race_free (log s).
Proof. exact no_race. Qed.
Print Assumptions C158_race_free.

(** A case: thread 1 begins with a stale word, and reads what thread 0 wrote (use 0). *)
Example C158_shares : exists s, reaches 2 s /\
  log s = [EvUse 1 1 false [0; 0]; EvUse 0 0 true []] /\ holds 1 (hist (base s)) = HShared /\ race_free (log s).
Proof.
  destruct (xruns (start 2) run_share) as [s|] eqn:E; [|vm_compute in E; discriminate].
  exists s. pose proof (@xruns_reaches 2 _ _ _ (x_init 2) E) as R. split; [exact R|].
  assert (Q : race_free (log s)) by (eapply C158_race_free; exact R).
  vm_compute in E. injection E as <-. repeat split. exact Q.
Qed.
(** A case: thread 0 upgrades, waits for the reader, and its write (use 2) sees the reader's use 1. *)
Example C158_upgrades : exists s, reaches 2 s /\
  log s = [EvUse 0 2 true [0; 1; 0]; EvUse 1 1 false []; EvUse 0 0 false []] /\
  holds 0 (hist (base s)) = HExclusive /\ holds 1 (hist (base s)) = HNone.
Proof.
  destruct (xruns (start 2) run_upgrade) as [s|] eqn:E; [|vm_compute in E; discriminate].
  exists s. pose proof (@xruns_reaches 2 _ _ _ (x_init 2) E) as R. split; [exact R|].
  vm_compute in E. injection E as <-. repeat split.
Qed.

(** try_lock() of a mutex that nobody holds or uses returns true, if the caller has synchronised with the threads
    that used it. *)
Theorem C158_try_lock_synchronised : forall n s t r s',
  reaches n s -> unused s -> synchronised s t -> tries s t r s' -> r = true.
Proof. exact try_synchronised. Qed.
Print Assumptions C158_try_lock_synchronised.

Lemma xtries : forall s t r s1 s2 s', xexec s (XCall t TryLock) = Some s1 -> xexec s1 (XRun t r) = Some s2 -> xexec s2 (XRun t 0) = Some s' ->
  step s s1 /\ step s1 s2 /\ step s2 s'.
Proof. intros s t r s1 s2 s' A B C. repeat split; eapply xexec_step; eauto. Qed.
(** A case: thread 1 has synchronised with thread 0, which has unlocked the mutex. *)
Example C158_try_case : exists s s', reaches 2 s /\ unused s /\ synchronised s 1 /\ tries s 1 true s' /\
  holds 1 (hist (base s')) = HExclusive.
Proof.
  destruct (xruns (start 2) run_synced) as [s|] eqn:E; [|vm_compute in E; discriminate].
  pose proof (@xruns_reaches 2 _ _ _ (x_init 2) E) as R.
  destruct (xexec s (XCall 1 TryLock)) as [s1|] eqn:E1; [|vm_compute in E; injection E as <-; vm_compute in E1; discriminate].
  destruct (xexec s1 (XRun 1 0)) as [s2|] eqn:E2; [|vm_compute in E; injection E as <-; vm_compute in E1; injection E1 as <-; vm_compute in E2; discriminate].
  destruct (xexec s2 (XRun 1 0)) as [s3|] eqn:E3;
    [|vm_compute in E; injection E as <-; vm_compute in E1; injection E1 as <-; vm_compute in E2; injection E2 as <-; vm_compute in E3; discriminate].
  destruct (xtries _ _ _ _ _ _ E1 E2 E3) as (T1 & T2 & T3). exists s, s3. split; [exact R|]. clear R.
  assert (T : hist (base s1) = ECall 1 TryLock :: hist (base s) /\ hist (base s2) = hist (base s1) /\
              hist (base s3) = ERet 1 TryLock (RBool true) :: hist (base s2) /\ unused s /\ synchronised s 1 /\ holds 1 (hist (base s3)) = HExclusive).
  { clear T1 T2 T3. vm_compute in E. injection E as <-. vm_compute in E1. injection E1 as <-. vm_compute in E2. injection E2 as <-. vm_compute in E3. injection E3 as <-.
    repeat split.
    - destruct u; reflexivity.
    - destruct u; reflexivity.
    - intros [|[|u]]; cbn; lia. }
  destruct T as (A & B & C & D & F & G). repeat split; auto; try apply D.
  exists s1, s2. auto 10.
Qed.

(** Without that it may return false, although nobody holds the mutex or is in a call: it returns what a plain
    read of the word says, without an exchange. *)
Theorem C158_try_lock_refuted : ~ forall n s t r s', reaches n s -> unused s -> tries s t r s' -> r = true.
Proof.
  intros H.
  destruct (xruns (start 2) run_write) as [s|] eqn:E; [|vm_compute in E; discriminate].
  pose proof (@xruns_reaches 2 _ _ _ (x_init 2) E) as R.
  destruct (xexec s (XCall 1 TryLock)) as [s1|] eqn:E1; [|vm_compute in E; injection E as <-; vm_compute in E1; discriminate].
  destruct (xexec s1 (XRun 1 1)) as [s2|] eqn:E2; [|vm_compute in E; injection E as <-; vm_compute in E1; injection E1 as <-; vm_compute in E2; discriminate].
  destruct (xexec s2 (XRun 1 0)) as [s3|] eqn:E3;
    [|vm_compute in E; injection E as <-; vm_compute in E1; injection E1 as <-; vm_compute in E2; injection E2 as <-; vm_compute in E3; discriminate].
  destruct (xtries _ _ _ _ _ _ E1 E2 E3) as (T1 & T2 & T3).
  assert (T : hist (base s1) = ECall 1 TryLock :: hist (base s) /\ hist (base s2) = hist (base s1) /\
              hist (base s3) = ERet 1 TryLock (RBool false) :: hist (base s2) /\ unused s).
  { clear T1 T2 T3 R. vm_compute in E. injection E as <-. vm_compute in E1. injection E1 as <-. vm_compute in E2. injection E2 as <-. vm_compute in E3. injection E3 as <-.
    repeat split.
    - destruct u; reflexivity.
    - destruct u; reflexivity. }
  destruct T as (A & B & C & D).
  specialize (H 2 s 1 false s3 R D). discriminate H. exists s1, s2. auto 10.
Qed.
Print Assumptions C158_try_lock_refuted.

(** No wake-up is lost to a stale read: when everything has come to rest, a thread is blocked in a call only if
    another thread holds the mutex and is not in a call (unless a call has thrown lock_error).  Whether a thread
    can take its next step does not depend on what it reads, so [at_rest] is that of WS_Spec.v. *)
Theorem C158_no_lost_wakeup : forall n s t, reaches n s -> nothrow (hist (base s)) -> at_rest (base s) -> blocked (base s) t ->
  exists j, j <> t /\ holds j (hist (base s)) <> HNone /\ calling j (hist (base s)) = None.
Proof. exact no_lost. Qed.
Print Assumptions C158_no_lost_wakeup.

(** A case: thread 1 waits for thread 0, after a stale read. *)
Example C158_waits : exists s, reaches 2 s /\ nothrow (hist (base s)) /\ at_rest (base s) /\ blocked (base s) 1 /\
  holds 0 (hist (base s)) = HExclusive /\ calling 1 (hist (base s)) = Some Lock.
Proof.
  destruct (xruns (start 2) run_wait) as [s|] eqn:E; [|vm_compute in E; discriminate].
  exists s. pose proof (@xruns_reaches 2 _ _ _ (x_init 2) E) as R. split; [exact R|]. clear R.
  vm_compute in E. injection E as <-. split; [|split; [|split; [|split]]].
  - intros u o H. cbn in H. repeat (destruct H as [H|H]; [discriminate|]). exact H.
  - intros [|[|t]]; try reflexivity. destruct t; reflexivity.
  - split; [discriminate|reflexivity].
  - reflexivity.
  - reflexivity.
Qed.
