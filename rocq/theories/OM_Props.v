(** * The effects of the function of call_once are visible: theorems *)
From Coq Require Import List Arith Lia.
Import ListNotations.
From Verif Require Import OM_Model OM_Spec OM_Frames OM_Views OM_Atomic OM_Win OM_Epoch OM_Runs.

(** ** Every thread that returns from call_once sees what the function has done *)

(** once_atomic.cpp. *)
Theorem once_effects_visible : forall s, reach astep (init 0) s -> returns_see (log s).
Proof. intros s R. destruct (AI_reach s R) as (ow & _ & _ & _ & _ & P). apply P. Qed.
Print Assumptions once_effects_visible.

(** pthread/once.hpp, for up to [W] - 3 initialisations, where [W] = 2^32 (C21). *)
Theorem once_effects_visible_epoch : forall W s, reach (estep W) (init W) s -> completions (log s) + 3 <= W ->
  returns_see (log s).
Proof. intros W s R B. destruct (EI_reach W s R B) as (ow & _ & _ & _ & _ & _ & P). apply P. Qed.
Print Assumptions once_effects_visible_epoch.

(** win32/once.hpp. *)
Theorem once_effects_visible_windows : forall s, reach wstep (init 0) s -> returns_see (log s).
Proof. intros s R. destruct (WI_reach s R) as (ow & _ & _ & _ & _ & P). apply P. Qed.
Print Assumptions once_effects_visible_windows.

(** ** Executions do not overlap, and each sees what the failed ones before it have done *)

Theorem once_executions_ordered : forall s, reach astep (init 0) s -> starts_see (log s) /\ completes_once (log s).
Proof. intros s R. destruct (AI_reach s R) as (ow & _ & _ & _ & _ & P). apply P. Qed.
Print Assumptions once_executions_ordered.

Theorem once_executions_ordered_epoch : forall W s, reach (estep W) (init W) s -> completions (log s) + 3 <= W ->
  starts_see (log s) /\ completes_once (log s).
Proof. intros W s R B. destruct (EI_reach W s R B) as (ow & _ & _ & _ & _ & _ & P). apply P. Qed.
Print Assumptions once_executions_ordered_epoch.

Theorem once_executions_ordered_windows : forall s, reach wstep (init 0) s -> starts_see (log s) /\ completes_once (log s).
Proof. intros s R. destruct (WI_reach s R) as (ow & _ & _ & _ & _ & P). apply P. Qed.
Print Assumptions once_executions_ordered_windows.

(** ** Cases: thread 0 executes the function, which throws; thread 1 executes it again; thread 2 returns after
    one look at the flag. Thread 3 has not called call_once and sees nothing. *)
Definition saw_both (s : st) : Prop :=
  exists saw later before, log s = later ++ EvRet 2 5 saw :: before /\ In 0 saw /\ In 1 saw /\
    In (EvEnd 0 5 0 false) before /\ In (EvEnd 1 5 1 true) before /\ v_see (vw s 3) = [].

Example runs_atomic : exists s, reach astep (init 0) s /\ saw_both s.
Proof.
  exists (proj1_sig ar_end). split; [exact (proj2_sig ar_end)|].
  eexists _, [], _. split; [reflexivity|]. repeat split; vm_compute; auto 10.
Qed.
Example runs_epoch : exists s, reach (estep W0) (init W0) s /\ completions (log s) + 3 <= W0 /\ saw_both s.
Proof.
  exists (proj1_sig er_end). split; [exact (proj2_sig er_end)|]. split; [vm_compute; lia|].
  eexists _, [], _. split; [reflexivity|]. repeat split; vm_compute; auto 20.
Qed.
Example runs_windows : exists s, reach wstep (init 0) s /\ saw_both s.
Proof.
  exists (proj1_sig wr_end). split; [exact (proj2_sig wr_end)|].
  eexists _, [], _. split; [reflexivity|]. repeat split; vm_compute; auto 10.
Qed.
