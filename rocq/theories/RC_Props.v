(** * Theorems about constructors and calls that fail *)
From Coq Require Import List Arith Lia.
From Verif Require Import RC_Spec RC_Inv RC_Term.
Import ListNotations.
Set Implicit Arguments.

Tactic Notation "fwd" hyp(R) uconstr(rule) := let H := fresh "H" in pose proof R as H; clear R; eapply r_step in H; [|eapply rule; try reflexivity; cbn; auto; discriminate]; cbn in H; rename H into R.
Ltac ex R := fwd R s_exec.

(** ** C152 *)
Lemma inv_clean k s : inv k s -> clean s.
Proof.
  intros I. split; [|split; [exact (v_dead I)|exact (v_term I)]]. intros H w Hw. pose proof (v_run I w Hw) as A. pose proof (v_at I) as V. unfold at_phase in V. destruct H as [H|H].
  - rewrite (v_thrown I H) in V. lia.
  - rewrite (v_done I H) in V. destruct V as (_ & B & C). rewrite B in A. pose proof (v_join I w (C w A)). congruence.
Qed.
(** serial_executor, scheduler, scheduling_adaptor *)
Theorem executor_constructor : forall term k s, k = Serial \/ k = Timer -> reach term k s -> clean s.
Proof. intros term k s Hk Hr. apply (inv_clean (k := k)), (reach_inv Hr). refine (@never_late term k s _ _ Hr); destruct Hk; subst; reflexivity. Qed.
Print Assumptions executor_constructor.
(** all executors, if no failure comes after the start of a thread: also, the destructor leaves nothing behind *)
Theorem executor_constructor_partial : forall term k s, reach term k s -> ~ late_failure s -> clean s.
Proof. intros term k s Hr Hl. exact (inv_clean (reach_inv Hr Hl)). Qed.
Print Assumptions executor_constructor_partial.
(** If one does, and ~thread terminates, the exception never reaches the caller. *)
Theorem executor_constructor_terminates : forall k s, reach true k s -> late_failure s -> ~ In EThrown (hist s) /\ ~ In EBuilt (hist s).
Proof. intros k s Hr Hl. exact (d_silent (late_doomed Hr Hl)). Qed.
Print Assumptions executor_constructor_terminates.
(** basic_thread_pool(2), the second thread cannot be started: the first uses the queue after its destructor; then the program is terminated or, if ~thread detaches, the
    exception reaches the caller while the first thread runs on. *)
Theorem executor_constructor_refuted :
  (exists s, reach true (Pool 2) s /\ hist s = [ETerm; EDead 0; EFail 1; EStart 0]) /\
  (exists s, reach false (Pool 2) s /\ hist s = [EDead 0; EThrown; EFail 1; EStart 0] /\ run s 0 = Running) /\
  (exists s, reach false (Sched 2) s /\ hist s = [EDead 0; EThrown; EFail 1; EStart 0] /\ run s 0 = Running) /\
  (exists s, reach true (Sched 2) s /\ hist s = [ETerm; EFail 1; EStart 0]).
Proof.
  split; [|split; [|split]].
  - pose proof (r_init true (Pool 2)) as R. ex R. ex R. ex R. fwd R s_throw. ex R. ex R. ex R. fwd R (@s_use _ _ _ 0). ex R. eexists. split; [exact R|reflexivity].
  - pose proof (r_init false (Pool 2)) as R. ex R. ex R. ex R. fwd R s_throw. ex R. ex R. ex R. ex R. fwd R s_thrown. fwd R (@s_use _ _ _ 0). eexists. split; [exact R|split; reflexivity].
  - pose proof (r_init false (Sched 2)) as R. ex R. ex R. fwd R s_throw. ex R. ex R. ex R. ex R. fwd R s_thrown. fwd R (@s_use _ _ _ 0). eexists. split; [exact R|split; reflexivity].
  - pose proof (r_init true (Sched 2)) as R. ex R. ex R. fwd R s_throw. ex R. ex R. eexists. split; [exact R|reflexivity].
Qed.
Print Assumptions executor_constructor_refuted.
(** serial_executor: made and destroyed; its thread cannot be started *)
Example serial_reach : (exists s, reach true Serial s /\ hist s = [EDestroyed; EBuilt; EStart 0] /\ run s 0 = Ended) /\ exists s, reach true Serial s /\ hist s = [EThrown; EFail 0].
Proof.
  split.
  - pose proof (r_init true Serial) as R. ex R. ex R. fwd R s_built. fwd R s_destroy. ex R. fwd R (@s_end _ _ _ 0). ex R. ex R. ex R. fwd R s_done. eexists. split; [exact R|split; reflexivity].
  - pose proof (r_init true Serial) as R. fwd R s_throw. ex R. ex R. fwd R s_thrown. eexists. split; [exact R|reflexivity].
Qed.
(** a pool of two, made and destroyed; a pool whose first thread cannot be started *)
Example pool_reach : (exists s, reach true (Pool 2) s /\ hist s = [EDestroyed; EBuilt; EStart 1; EStart 0] /\ run s 0 = Ended /\ run s 1 = Ended) /\
  exists s, reach true (Pool 2) s /\ hist s = [EThrown; EFail 0].
Proof.
  split.
  - pose proof (r_init true (Pool 2)) as R. ex R. ex R. ex R. ex R. ex R. fwd R s_built. fwd R s_destroy. ex R. ex R. fwd R (@s_end _ _ _ 0). fwd R (@s_end _ _ _ 1). ex R. ex R. ex R. ex R. ex R.
    fwd R s_done. eexists. split; [exact R|split; [reflexivity|split; reflexivity]].
  - pose proof (r_init true (Pool 2)) as R. ex R. fwd R s_throw. ex R. ex R. ex R. ex R. fwd R s_thrown. eexists. split; [exact R|reflexivity].
Qed.

(** ** C153 *)
Lemma inv_all_or_nothing k s : inv k s -> is_object k = false -> num k = 1 -> all_or_nothing s.
Proof.
  intros I Hk Hn. pose proof (v_at I) as V. unfold at_phase in V. split; [|split; [|exact (v_term I)]].
  - intros H w Hin. apply (v_start I) in Hin. rewrite (v_thrown I H) in V. lia.
  - intros H. exists 0. destruct (v_built I H) as [E|[E|E]]; rewrite E in V.
    + destruct V as (A & B & _). rewrite Hn in *. split; [apply (v_start I); lia|rewrite B; left; reflexivity].
    + destruct V as (A & _). congruence.
    + destruct V as (A & _). congruence.
Qed.
(** thread_executor::submit *)
Theorem submit_all_or_nothing : forall term s, reach term Submit s -> all_or_nothing s.
Proof. intros term s Hr. apply (inv_all_or_nothing (k := Submit)); [|reflexivity|reflexivity]. apply (reach_inv Hr). exact (@never_late term Submit s eq_refl eq_refl Hr). Qed.
Print Assumptions submit_all_or_nothing.
(** thread_group::create_thread, if it does not fail after the start of the thread *)
Theorem create_thread_partial : forall term s, reach term Create s -> ~ late_failure s -> all_or_nothing s.
Proof. intros term s Hr Hl. exact (inv_all_or_nothing (reach_inv Hr Hl) eq_refl eq_refl). Qed.
Print Assumptions create_thread_partial.
(** The list of the group cannot grow: the call throws although the thread runs, or the program is terminated. *)
Theorem create_thread_refuted :
  (exists s, reach false Create s /\ hist s = [EThrown; EFail 1; EStart 0] /\ run s 0 = Running /\ thr s = []) /\ (exists s, reach true Create s /\ hist s = [ETerm; EFail 1; EStart 0]).
Proof.
  split.
  - pose proof (r_init false Create) as R. ex R. fwd R s_throw. ex R. fwd R s_thrown. eexists. split; [exact R|split; [reflexivity|split; reflexivity]].
  - pose proof (r_init true Create) as R. ex R. fwd R s_throw. ex R. eexists. split; [exact R|reflexivity].
Qed.
Print Assumptions create_thread_refuted.
Example submit_reach : (exists s, reach true Submit s /\ hist s = [EBuilt; EStart 0]) /\ (exists s, reach true Submit s /\ hist s = [EThrown; EFail 0]) /\
  (exists s, reach true Create s /\ hist s = [EBuilt; EStart 0] /\ run s 0 = Ended).
Proof.
  split; [|split].
  - pose proof (r_init true Submit) as R. ex R. ex R. ex R. fwd R s_built. eexists. split; [exact R|reflexivity].
  - pose proof (r_init true Submit) as R. ex R. fwd R s_throw. ex R. fwd R s_thrown. eexists. split; [exact R|reflexivity].
  - pose proof (r_init true Create) as R. ex R. ex R. fwd R s_built. fwd R (@s_end _ _ _ 0). eexists. split; [exact R|split; reflexivity].
Qed.
