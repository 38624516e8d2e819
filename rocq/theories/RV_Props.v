(** * C157: the Windows recursive mutex reads its owner's id without owning the mutex

    Model: RV_Model.v; specification: RV_Spec.v. [W]: the number of values of recursion_count; [D]: the depth to
    which the calls nest. *)
From Coq Require Import List Arith Lia.
Import ListNotations.
From Verif Require Import WM_Model RV_Model RV_Spec RV_Proofs RV_Runs.

(** A stale id never makes a thread take itself for the owner, or the owner for another thread. *)
Theorem C157_exclusive : forall W D s, 2 <= W -> D <= W -> reach W D s -> exclusive (log s).
Proof. intros W D s HW HD R. apply (wellh_spec _ (i_well _ _ _ (INV_reach W D HW HD s R))). Qed.
Print Assumptions C157_exclusive.

(** The owner never waits for the mutex. *)
Theorem C157_owner_never_waits : forall W D s t l op op', 2 <= W -> D <= W -> reach W D s ->
  pcs s t = PIn op l (RAcq op') -> level t (log s) = 0.
Proof. intros W D s t l op op' HW HD. exact (owner_short W D HW HD s t l op op'). Qed.
Print Assumptions C157_owner_never_waits.

Theorem C157_balanced : forall W D s, 2 <= W -> D <= W -> reach W D s -> balanced (log s).
Proof. intros W D s HW HD R. apply (wellh_spec _ (i_well _ _ _ (INV_reach W D HW HD s R))). Qed.
Print Assumptions C157_balanced.

Theorem C157_try_lock_exact : forall W D s, 2 <= W -> D <= W -> reach W D s -> try_fails_if_owned (log s).
Proof. intros W D s HW HD R. apply (wellh_spec _ (i_well _ _ _ (INV_reach W D HW HD s R))). Qed.
Print Assumptions C157_try_lock_exact.

(** What is done under the mutex is seen by the next owner. *)
Theorem C157_effects_seen : forall W D s, 2 <= W -> D <= W -> reach W D s -> effects_seen (log s).
Proof. intros W D s HW HD R. apply (wellh_spec _ (i_well _ _ _ (INV_reach W D HW HD s R))). Qed.
Print Assumptions C157_effects_seen.

(** recursion_count, a plain variable, is free of data races. *)
Theorem C157_count_safe : forall W D s, 2 <= W -> D <= W -> reach W D s -> count_safe (log s).
Proof. intros W D s HW HD R. apply (wellh_spec _ (i_well _ _ _ (INV_reach W D HW HD s R))). Qed.
Print Assumptions C157_count_safe.

(** A case: thread 0 locks twice and does effect 1; thread 1 reads the id as it was before (0), and its
    try_lock fails; thread 0 unlocks twice; thread 1 locks after it has read the stale id of thread 0, and
    sees effect 2. *)
Definition a_ (t : nat) : lab := LAcc t 0.
Definition run_ : list lab :=
  [LCall 0 RLock; a_ 0; a_ 0; a_ 0; a_ 0; LCall 0 RTry; a_ 0; a_ 0; LDo 0;
   LCall 1 RTry; LAcc 1 1; a_ 1; LCall 0 RUnlock; a_ 0; LCall 0 RUnlock; a_ 0; a_ 0;
   LCall 1 RLock; LAcc 1 1; a_ 0; a_ 1; a_ 1; a_ 1; LDo 1].
Definition visible (h : list ev) : list ev := filter (fun x => match x with EvCnt _ _ _ => false | _ => true end) h.
Example C157_case : exists s, reach 256 256 s /\
  (exists saw, visible (log s) = [EvDo 1 6 saw; EvGot 1; EvGive 0; EvOut 0; EvNo 1; EvDo 0 2 [1; 0]; EvIn 0; EvGot 0] /\ In 2 saw) /\
  level 1 (log s) = 1 /\ level 0 (log s) = 0.
Proof.
  destruct (runs 256 256 init run_) as [s|] eqn:E; [|vm_compute in E; discriminate]. exists s.
  split; [eapply runs_reach; [apply r_init|exact E]|]. vm_compute in E. injection E as <-. cbn [log vw v_see pcs].
  split; [eexists; split; [reflexivity|]|]; vm_compute; auto 20.
Qed.
(** A thread that waits for the mutex, and one whose timed lock has given up. *)
Example C157_waiting : exists s, reach 256 256 s /\ level 0 (log s) = 1 /\ pcs s 1 = PIn RLock 0 (RAcq RLock) /\ pcs s 2 = PIdle 0 /\ 4 < length (log s).
Proof.
  destruct (runs 256 256 init ([LCall 0 RLock; a_ 0; a_ 0; a_ 0; a_ 0; LDo 0; LDo 0; LCall 0 RLock; a_ 0; a_ 0; LCall 1 RLock; a_ 1; a_ 1; LCall 2 RTimed; a_ 2; a_ 2; LLate 2; a_ 2; LCall 0 RUnlock; a_ 0]))
    as [s|] eqn:E; [|vm_compute in E; discriminate]. exists s.
  split; [eapply runs_reach; [apply r_init|exact E]|]. vm_compute in E. injection E as <-. cbn [log vw v_see pcs].
  vm_compute; repeat split; auto 20.
Qed.
