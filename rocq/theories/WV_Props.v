(** * C156: what is done under a Windows mutex is seen by the next owner

    Model: WV_Model.v; specification: WV_Spec.v. *)
From Coq Require Import List Arith Lia.
Import ListNotations.
From Verif Require Import WM_Model WV_Model WV_Spec WV_Proofs WV_Runs.

(** Each thread that owns the mutex sees all that was done under it, on a machine with release/acquire memory. *)
Theorem C156_effects_seen : forall s, reach s -> effects_seen (log s).
Proof. intros s R. exact (proj2 (proj2 (wellh_spec _ (i_well _ (INV_reach s R))))). Qed.
Print Assumptions C156_effects_seen.

(** Stale values of active_count (the plain reads in lock and in the timed locks) do not let two threads in. *)
Theorem C156_exclusive : forall s, reach s -> exclusive (log s).
Proof. intros s R. exact (proj1 (wellh_spec _ (i_well _ (INV_reach s R)))). Qed.
Print Assumptions C156_exclusive.

(** Nor do they make try_lock fail on a free mutex. *)
Theorem C156_try_lock_exact : forall s, reach s -> try_fails_if_owned (log s).
Proof. intros s R. exact (proj1 (proj2 (wellh_spec _ (i_well _ (INV_reach s R))))). Qed.
Print Assumptions C156_try_lock_exact.

(** A case: thread 0 locks and does effect 0; threads 1 (timed) and 3 have to wait, thread 3 after it has read a
    stale value of active_count; try_lock of thread 2 fails; thread 0 does effect 1 and unlocks, which wakes
    thread 1. Thread 1 sees both effects of thread 0, thread 2 does not see the second one, thread 3 waits. *)
Definition a_ (t : nat) : lab := LAcc t 0 true false.
Definition run_ : list lab :=
  [LCall 0 OLock; a_ 0; LDo 0; LCall 3 OLock; a_ 3; LCall 1 OTimed; a_ 1; a_ 1; a_ 1; a_ 1;
   LAcc 3 1 true false; a_ 3; a_ 3; LCall 2 OTry; a_ 2; LDo 0; LCall 0 OUnlock; a_ 0; a_ 0; a_ 0;
   a_ 1; a_ 1; a_ 1; LDo 1].
Example C156_case : exists s, reach s /\
  (exists saw, log s = [EvDo 1 2 saw; EvGot 1; EvGive 0; EvDo 0 1 [0]; EvNo 2; EvDo 0 0 []; EvGot 0] /\ In 0 saw /\ In 1 saw) /\
  ~ In 1 (v_see (vw s 2)) /\ pcs s 3 = PIn OLock (KWait false (MkW true false 2)).
Proof.
  destruct (runs init run_) as [s|] eqn:E; [|vm_compute in E; discriminate]. exists s.
  split; [eapply runs_reach; [apply r_init|exact E]|]. vm_compute in E. injection E as <-. cbn [log vw v_see pcs].
  split; [eexists; split; [reflexivity|]|]; vm_compute; repeat split; auto 10.
Qed.
