(** * Theorems: unwrap() of a future of a future (C117-C119)

    Model: UW_Model.v; specification: UW_Spec.v. *)
From Verif Require Import UW_Model UW_Spec UW_Proofs UW_Inv UW_Live.
Set Implicit Arguments.

(** ** C117: the unwrapped future has the outcome of the inner future, or the exception of the outer one, for any nesting *)
Theorem unwrap_outcome : forall n s, reach n s ->
  (forall t i o, In (EGot t i o) (hist s) -> resolves NO_STATE (hist s) i o) /\
  (forall t i, In (EWaited t i) (hist s) -> exists o, resolves NO_STATE (hist s) i o) /\
  (forall i o o', resolves NO_STATE (hist s) i o -> resolves NO_STATE (hist s) i o' -> o = o').
Proof. intros n s Hr. destruct (right_reach Hr) as (A & B). split; [exact A|split; [exact B|]]. intros i o o'. apply res_fun. exact (i_sta (inv_reach Hr)). Qed.
Print Assumptions unwrap_outcome.

(** whatever a thread still has to do inside a call it can do: no assertion fails *)
Theorem unwrap_never_stuck_inside : forall n s t z, reach n s -> nth_error (thrs s) t = Some z -> fs z <> [] -> exec s (LRun t) <> None.
Proof. exact no_assertion. Qed.
Print Assumptions unwrap_never_stuck_inside.

Definition after (n : nat) (ls : list label) : sys := match runl (init n) ls with Some s => s | None => init n end.
Lemma runl_reach n s ls s' : reach n s -> runl s ls = Some s' -> reach n s'.
Proof.
  revert s. induction ls as [|l ls IH]; intros s Hr E; cbn in E; [congruence|].
  destruct (exec s l) as [s1|] eqn:El; [|discriminate]. apply (IH s1); [econstructor; eauto|exact E].
Qed.
Lemma after_reach n ls : reach n (after n ls).
Proof. unfold after. destruct (runl (init n) ls) as [s|] eqn:E; [|constructor]. eapply runl_reach; eauto. constructor. Qed.

(** three levels: future 0 of a future of a future of a value is unwrapped twice (1, 2); thread 1 waits; promises 3, 4 are the inner ones *)
Definition deep_run : list label :=
  [LCall 0 (ONew 2 false); LCall 0 (OUnwrap 0); LCall 0 (OUnwrap 1); LCall 1 (OWait 2); LCall 0 (ONew 1 false); LCall 0 (ONew 0 false);
   LCall 0 (OSet 3 (Fut (Some 4))); LCall 0 (OSet 0 (Fut (Some 3))); LRun 0; LRun 0; LRun 0; LRun 0; LRun 0; LCall 0 (OSet 4 (Val 7)); LRun 0; LRun 1; LCall 1 (OGet 2)].
Example deep_case : reach 2 (after 2 deep_run) /\ hist (after 2 deep_run) =
  [EGot 1 2 (Val 7); EWaited 1 2; ESet 4 (Val 7); ESet 0 (Fut (Some 3)); ESet 3 (Fut (Some 4)); ENew 4 0 false; ENew 3 1 false; EWaits 1 2; EUnwrap 1 2; EUnwrap 0 1; ENew 0 2 false].
Proof. split; [apply after_reach|vm_compute; reflexivity]. Qed.
(** in the middle of a call, with work left to do *)
Example inside_case : match nth_error (thrs (after 2 (firstn 8 deep_run))) 0 with Some z => fs z <> [] | None => False end.
Proof. vm_compute. discriminate. Qed.
(** an exception of the outer future *)
Definition fail_run : list label := [LCall 0 (ONew 1 false); LCall 0 (OUnwrap 0); LCall 1 (OWait 1); LCall 0 (OSet 0 (Exc 9)); LRun 0; LRun 1; LCall 1 (OGet 1)].
Example fail_case : In (EGot 1 1 (Exc 9)) (hist (after 2 fail_run)).
Proof. vm_compute. auto. Qed.

(** ** C118: the unwrapped future becomes ready when both futures are *)
(** A thread that waits, when nothing can go on, waits for a promise that has not been set: not so *)
Theorem unwrap_completes_refuted : ~ (forall n s t i, reach n s -> at_rest s -> waits t (hist s) = Some i ->
  (forall o, ~ resolves NO_STATE (hist s) i o) /\ exists p, needs NO_STATE (hist s) i p /\ is_promise (hist s) p).
Proof.
  intros H. specialize (H 1 (after 1 [LCall 0 (ONew 1 true); LCall 0 (OUnwrap 0); LCall 0 (OWait 1)]) 0 1 (after_reach _ _)).
  destruct H as (_ & p & _ & m & Hp).
  - intros [|t]; [split; [reflexivity|intros o; reflexivity]|]. split; [destruct t; reflexivity|intros o; destruct t; reflexivity].
  - reflexivity.
  - vm_compute in Hp. repeat (destruct Hp as [Hp|Hp]; [congruence|]). exact Hp.
Qed.
Print Assumptions unwrap_completes_refuted.

(** missing: a deferred function that an unwrapped future stands for, and that nobody waits for itself, is never executed *)
Theorem unwrap_completes_partial : forall n s t i, reach n s -> at_rest s -> waits t (hist s) = Some i ->
  (forall o, ~ resolves NO_STATE (hist s) i o) /\
  (exists p, needs NO_STATE (hist s) i p /\ (is_promise (hist s) p \/ p <> i)) /\
  ((forall j m, ~ In (ENew j m true) (hist s)) -> exists p, needs NO_STATE (hist s) i p /\ is_promise (hist s) p).
Proof.
  intros n s t i Hr Ha Hw. destruct (@stuck n s t i Hr Ha Hw) as (A & B). split; [exact A|split; [exact B|]]. exact (@stuck_promise n s t i Hr Ha Hw).
Qed.
Print Assumptions unwrap_completes_partial.

(** the calls end: what the threads do by themselves takes at most three steps for each unwrap() and one for each thread *)
Theorem unwrap_ends : forall n s ls s', reach n s -> runl s ls = Some s' -> Forall (fun l => exists t, l = LRun t) ls -> length ls <= 3 * unwraps (hist s) + n.
Proof. exact steps_bound. Qed.
Print Assumptions unwrap_ends.

(** waiting for future 2 with the inner promise 4 not set *)
Example wait_case : at_rest (after 2 (firstn 13 deep_run)) /\ waits 1 (hist (after 2 (firstn 13 deep_run))) = Some 2 /\ needs NO_STATE (hist (after 2 (firstn 13 deep_run))) 2 4.
Proof.
  split; [|split; [reflexivity|]].
  - intros [|[|t]]; (split; [try destruct t; reflexivity|intros o; try destruct t; reflexivity]).
  - assert (R1 : resolves NO_STATE (hist (after 2 (firstn 13 deep_run))) 1 (Fut (Some 4))).
    { apply R_inner with 0 3; [vm_compute; auto 10|apply R_set; vm_compute; auto 10|apply R_set; vm_compute; auto 10]. }
    apply N_inner with 1 4; [vm_compute; auto 10|exact R1|]. apply N_self with 0 false; [vm_compute; auto 10|]. intros o H. vm_compute in H. repeat (destruct H as [H|H]; [congruence|]). exact H.
Qed.
Example ends_case : exists s', runl (after 2 (firstn 8 deep_run)) [LRun 0; LRun 0; LRun 0; LRun 0; LRun 0] = Some s' /\ unwraps (hist (after 2 (firstn 8 deep_run))) = 2.
Proof. destruct (runl (after 2 (firstn 8 deep_run)) [LRun 0; LRun 0; LRun 0; LRun 0; LRun 0]) as [s'|] eqn:E; [|vm_compute in E; discriminate]. exists s'. split; [reflexivity|vm_compute; reflexivity]. Qed.

(** ** C119: an outer future that delivers a future without a state gives the documented exception *)
Definition invalid_run : list label := [LCall 0 (ONew 1 false); LCall 0 (OUnwrap 0); LCall 0 (OSet 0 (Fut None)); LRun 0; LCall 0 (OWait 1); LRun 0; LCall 0 (OGet 1)].
Theorem unwrap_invalid_inner_refuted : ~ (forall n s t i u o, reach n s -> In (EUnwrap i u) (hist s) -> In (ESet i (Fut None)) (hist s) -> In (EGot t u o) (hist s) -> o = Exc BROKEN_PROMISE).
Proof.
  intros H. specialize (H 1 (after 1 invalid_run) 0 0 1 (Exc NO_STATE) (after_reach _ _)). assert (E : Exc NO_STATE = Exc BROKEN_PROMISE) by (apply H; vm_compute; auto 10). discriminate.
Qed.
Print Assumptions unwrap_invalid_inner_refuted.
(** missing: it is future_uninitialized, not broken_promise *)
Theorem unwrap_invalid_inner_partial : forall n s t i u o, reach n s -> In (EUnwrap i u) (hist s) -> In (ESet i (Fut None)) (hist s) -> In (EGot t u o) (hist s) -> o = Exc NO_STATE.
Proof.
  intros n s t i u o Hr Hu Hs Hg. destruct (unwrap_outcome Hr) as (A & _ & C). apply (C u); [exact (A _ _ _ Hg)|]. apply R_inner_invalid with i; [exact Hu|apply R_set; exact Hs].
Qed.
Print Assumptions unwrap_invalid_inner_partial.
Example invalid_case : In (EGot 0 1 (Exc NO_STATE)) (hist (after 1 invalid_run)) /\ In (ESet 0 (Fut None)) (hist (after 1 invalid_run)).
Proof. vm_compute. auto 10. Qed.
