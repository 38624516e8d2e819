(** * Theorems: scheduler, its executors, scheduled_thread_pool, scheduling_adaptor (C120-C125)

    Model: SR_Model.v; specification: SR_Spec.v. *)
From Verif Require Import SR_Model SR_Spec SR_Proofs SR_Live SR_Asked.
Set Implicit Arguments.

(** ** C120: each closure is started at most once, not before its time, and where it was sent *)
Theorem schedule_once_not_early : forall n m c z s, reach n m c z s ->
  (forall i, starts i (hist s) <= 1) /\
  (forall i c, In (ERun i c) (hist s) -> exists d, In (ESub i d None) (hist s) /\ (d <= c)%Z) /\
  (forall i e c, In (EResub i e c) (hist s) -> exists d, In (ESub i d (Some e)) (hist s) /\ (d <= c)%Z) /\
  (forall i d o d' o', In (ESub i d o) (hist s) -> In (ESub i d' o') (hist s) -> d = d' /\ o = o') /\
  (forall e x, nth_error (exs s) e = Some x -> xgot x = given e (hist s)).
Proof.
  intros n m c z s Hr. pose proof (inv_reach Hr) as HI. split; [intros i; exact (starts_once i HI)|].
  split; [intros i c' H; exact (proj1 (i_run HI _ _ H))|]. split; [exact (i_res HI)|]. split; [exact (i_uniq HI)|]. intros e x H. exact (proj1 (i_x HI _ H)).
Qed.
Print Assumptions schedule_once_not_early.

(** and it is started, once its time has come: unless the scheduler is closed, all its threads are busy, or the program has ended *)
Theorem schedule_started_when_due : forall n m c z s i d o, reach n m c z s -> at_rest s -> thread_free s -> undisturbed (hist s) -> ~ terminated (hist s) ->
  (forall c, ~ In (EClose c) (hist s)) -> In (ESub i d o) (hist s) -> (d <= now s)%Z -> begun (hist s) i.
Proof. exact due_begun. Qed.
Print Assumptions schedule_started_when_due.

(** what is scheduled is what the program asked for: the closure that submit_at or submit of an executor obtained from at, after or on schedules is for that time and that executor *)
Theorem schedule_as_asked : forall n m c z ls t s s' i d o,
  runl (init n m c z) ls = Some s -> exec s (LClient t) = Some s' -> hist s' = ESub i d o :: hist s -> asked ls t d o.
Proof. exact sub_asked. Qed.
Print Assumptions schedule_as_asked.

(** submit throws only if the scheduler, the executor or the wrapper has been closed before *)
Theorem schedule_rejects_only_closed : forall n m c z s h2 h1, reach n m c z s -> hist s = h2 ++ ERej :: h1 ->
  In EWClose h1 \/ (exists c, In (EClose c) h1) \/ exists e, In (ECloseE e) h1.
Proof. intros n m c z s h2 h1 Hr. exact (rejs_reach Hr h2 h1). Qed.
Print Assumptions schedule_rejects_only_closed.

Definition after (n m c : nat) (z : Z) (ls : list label) : sys := match runl (init n m c z) ls with Some s => s | None => init n m c z end.
Lemma runl_reach n m c z s ls s' : reach n m c z s -> runl s ls = Some s' -> reach n m c z s'.
Proof.
  revert s. induction ls as [|l ls IH]; intros s Hr E; cbn in E; [congruence|].
  destruct (exec s l) as [s1|] eqn:El; [|discriminate]. apply (IH s1); [econstructor; eauto|exact E].
Qed.
Lemma after_reach n m c z ls : reach n m c z (after n m c z ls).
Proof. unfold after. destruct (runl (init n m c z) ls) as [s|] eqn:E; [|constructor]. eapply runl_reach; eauto. constructor. Qed.
Ltac resting := split; [intros [|[|k]] [|[|j]]; try reflexivity; destruct k; reflexivity|split; [intros [|[|k]]; try reflexivity; destruct k; reflexivity|intros [|[|t]]; try reflexivity; destruct t; reflexivity]].

(** one closure for the scheduler's thread at 5, one for executor 0 at 3, submitted in this order; a third, at 100, stays *)
Definition two_run : list label :=
  [LWork 0; LCall 0 (OAt 5); LCall 0 (OOn 0 3); LCall 0 (OSubmit 0); LClient 0; LClient 0; LCall 1 (OSubmit 1); LClient 1; LClient 1; LClient 1; LCall 0 (OSubmitAt 100); LClient 0;
   LTick 4; LWork 0; LPull 0 1; LWork 0; LWork 0; LTick 3; LWork 0; LPull 0 0; LWork 0; LAct 0 AEnd; LWork 0].
Lemma two_hist : hist (after 1 1 2 0 two_run) = [EEnd 0; ERun 0 7; EResub 1 0 4; ESub 2 100 None; ESub 1 3 (Some 0); ESub 0 5 None].
Proof. vm_compute. reflexivity. Qed.
Example two_case : reach 1 1 2 0 (after 1 1 2 0 two_run) /\
  hist (after 1 1 2 0 two_run) = [EEnd 0; ERun 0 7; EResub 1 0 4; ESub 2 100 None; ESub 1 3 (Some 0); ESub 0 5 None] /\
  at_rest (after 1 1 2 0 two_run) /\ thread_free (after 1 1 2 0 two_run) /\ undisturbed (hist (after 1 1 2 0 two_run)) /\ ~ terminated (hist (after 1 1 2 0 two_run)) /\
  forall c, ~ In (EClose c) (hist (after 1 1 2 0 two_run)).
Proof.
  split; [apply after_reach|]. split; [apply two_hist|]. split; [resting|]. split; [exists 0; eexists; split; [reflexivity|]; intros it; vm_compute; discriminate|].
  split; [split; [|intros i]; rewrite ?two_hist; cbn; intuition discriminate|]. split; [intros (i & H); revert H|intros c]; rewrite ?two_hist; cbn; intuition discriminate.
Qed.
Definition rej_run : list label := [LCall 0 (OAt 5); LCall 0 (OSubmit 0); LCall 1 OClose; LClient 0].
Example rej_case : hist (after 1 0 2 0 rej_run) = [] ++ ERej :: [EClose 0%Z].
Proof. vm_compute. reflexivity. Qed.

Definition asked_run : list label := [LCall 0 (OAt 4); LCall 1 (OOn 1 7); LCall 0 (OSubmit 1); LCall 1 (OSubmit 0); LClient 0; LClient 1; LClient 0; LClient 1].
Example asked_case : exists s s', runl (init 1 2 2 0) asked_run = Some s /\ exec s (LClient 0) = Some s' /\ hist s' = ESub 1 7 (Some 1) :: hist s /\ hist s = [ESub 0 4 None] /\ asked asked_run 0 7 (Some 1).
Proof. eexists. eexists. split; [vm_compute; reflexivity|]. split; [vm_compute; reflexivity|]. repeat split. Qed.

(** ** C121: the program does not end unless a closure lets an exception out *)
Definition closed_below_run : list label := [LCall 0 (OOn 0 3); LCall 0 (OSubmit 0); LClient 0; LClient 0; LClient 0; LCall 0 (OCloseE 0); LTick 3; LPull 0 0; LWork 0].
Lemma closed_below_hist : hist (after 1 1 1 0 closed_below_run) = [ETerm 0; ECloseE 0; ESub 0 3 (Some 0)].
Proof. vm_compute. reflexivity. Qed.
Theorem schedule_terminates_only_by_closure_refuted : ~ (forall n m c z s i, reach n m c z s -> In (ETerm i) (hist s) -> In (EThrew i) (hist s)).
Proof.
  intros H. specialize (H 1 1 1 0%Z (after 1 1 1 0 closed_below_run) 0 (after_reach _ _ _ _ _)). rewrite closed_below_hist in H; cbn in H. assert (X : False); [|exact X].
  destruct H as [H|H]; [left; reflexivity|discriminate|]. repeat (destruct H as [H|H]; [discriminate|]). exact H.
Qed.
Print Assumptions schedule_terminates_only_by_closure_refuted.

(** missing: a closure that is waiting to be submitted to an executor that is closed meanwhile *)
Theorem schedule_terminates_only_by_closure_partial : forall n m c z s i, reach n m c z s -> In (ETerm i) (hist s) ->
  In (EThrew i) (hist s) \/ exists d e, In (ESub i d (Some e)) (hist s) /\ In (ECloseE e) (hist s).
Proof. intros n m c z s i Hr. exact (i_term (inv_reach Hr) i). Qed.
Print Assumptions schedule_terminates_only_by_closure_partial.

Example threw_case : hist (after 1 0 1 0 [LCall 0 (OSubmitAt 0); LClient 0; LPull 0 0; LWork 0; LAct 0 AThrow]) = [ETerm 0; EThrew 0; ERun 0 0; ESub 0 0 None].
Proof. vm_compute. reflexivity. Qed.

(** ** C122: close() lets the threads work until there are no more closures *)
Definition close_run : list label := [LCall 0 (OSubmitAt 1); LClient 0; LCall 0 (OSubmitAt 9); LClient 0; LTick 1; LCall 0 OClose; LPull 0 0; LWork 0; LAct 0 AEnd; LWork 0; LTick 20].
Lemma close_hist : hist (after 1 0 1 0 close_run) = [EEnd 0; ERun 0 1; EClose 1; ESub 1 9 None; ESub 0 1 None].
Proof. vm_compute. reflexivity. Qed.
Theorem schedule_close_runs_all_refuted : ~ (forall n m c z s i d o, reach n m c z s -> at_rest s -> thread_free s -> undisturbed (hist s) -> ~ terminated (hist s) ->
  (exists c, In (EClose c) (hist s)) -> In (ESub i d o) (hist s) -> (d <= now s)%Z -> begun (hist s) i).
Proof.
  intros H. specialize (H 1 0 1 0%Z (after 1 0 1 0 close_run) 1 9%Z None (after_reach _ _ _ _ _)). destruct H as (c & H).
  - resting.
  - exists 0. eexists. split; [reflexivity|]. intros it. vm_compute. discriminate.
  - split; [|intros i]; rewrite ?close_hist; cbn; intuition discriminate.
  - intros (i & H'). revert H'. rewrite close_hist; cbn; intuition discriminate.
  - exists 1%Z. rewrite close_hist; cbn; auto.
  - rewrite close_hist; cbn; auto 10.
  - vm_compute. discriminate.
  - destruct H as [H|(e & H)]; rewrite close_hist in H; cbn in H; intuition discriminate.
Qed.
Print Assumptions schedule_close_runs_all_refuted.

(** missing: closures whose time had not come when close() was called *)
Theorem schedule_close_runs_all_partial : forall n m c z s i d o, reach n m c z s -> at_rest s -> thread_free s -> undisturbed (hist s) -> ~ terminated (hist s) ->
  (exists c, In (EClose c) (hist s)) -> In (ESub i d o) (hist s) -> (forall c, In (EClose c) (hist s) -> (d <= c)%Z) -> begun (hist s) i.
Proof. exact close_begun. Qed.
Print Assumptions schedule_close_runs_all_partial.

Example close_case : hist (after 1 0 1 0 close_run) = [EEnd 0; ERun 0 1; EClose 1; ESub 1 9 None; ESub 0 1 None] /\ at_rest (after 1 0 1 0 close_run) /\
  forall c, In (EClose c) (hist (after 1 0 1 0 close_run)) -> (1 <= c)%Z.
Proof.
  split; [apply close_hist|]. split; [resting|]. intros c H. rewrite close_hist in H; cbn in H. repeat (destruct H as [H|H]; [try discriminate|]); [injection H as <-; lia|contradiction].
Qed.

(** ** C123: all closures complete before the destructor does *)
Definition destroy_run : list label := [LCall 0 (OSubmitAt 9); LClient 0; LCall 0 ODestroy; LClient 0; LWork 0; LClient 0; LClient 0; LClient 0].
Lemma destroy_hist : hist (after 1 0 1 0 destroy_run) = [EDestroyed; EClose 0; EDestroy 0; ESub 0 9 None].
Proof. vm_compute. reflexivity. Qed.
Theorem schedule_destructor_completes_refuted : ~ (forall n m c z s i d o, reach n m c z s -> n <> 0 -> undisturbed (hist s) -> In EDestroyed (hist s) -> In (ESub i d o) (hist s) -> begun (hist s) i).
Proof.
  intros H. specialize (H 1 0 1 0%Z (after 1 0 1 0 destroy_run) 0 9%Z None (after_reach _ _ _ _ _)). destruct H as (c & H).
  - discriminate.
  - split; [|intros i]; rewrite ?destroy_hist; cbn; intuition discriminate.
  - rewrite destroy_hist; cbn; auto.
  - rewrite destroy_hist; cbn; auto 10.
  - destruct H as [H|(e & H)]; rewrite destroy_hist in H; cbn in H; intuition discriminate.
Qed.
Print Assumptions schedule_destructor_completes_refuted.

(** not even those whose time had come when the destructor was called: the destructor interrupts the thread, and the wait for work throws *)
Definition destroy_due_run : list label := [LWork 0; LCall 0 (OSubmitAt 0); LClient 0; LCall 0 ODestroy; LClient 0; LClient 0; LWork 0; LClient 0; LClient 0].
Lemma destroy_due_hist : hist (after 1 0 1 0 destroy_due_run) = [EDestroyed; EThrown; EClose 0; EDestroy 0; ESub 0 0 None].
Proof. vm_compute. reflexivity. Qed.
Theorem schedule_destructor_completes_due_refuted : ~ (forall n m c z s i d o, reach n m c z s -> n <> 0 -> In EDestroyed (hist s) -> In (ESub i d o) (hist s) ->
  (forall c, In (EDestroy c) (hist s) -> (d <= c)%Z) -> begun (hist s) i).
Proof.
  intros H. specialize (H 1 0 1 0%Z (after 1 0 1 0 destroy_due_run) 0 0%Z None (after_reach _ _ _ _ _)). destruct H as (c & H).
  - discriminate.
  - rewrite destroy_due_hist; cbn; auto.
  - rewrite destroy_due_hist; cbn; auto 10.
  - intros c H'. rewrite destroy_due_hist in H'; cbn in H'. repeat (destruct H' as [H'|H']; [try discriminate|]); [injection H' as <-; lia|contradiction].
  - destruct H as [H|(e & H)]; rewrite destroy_due_hist in H; cbn in H; intuition discriminate.
Qed.
Print Assumptions schedule_destructor_completes_due_refuted.

(** missing: closures whose time had not come, and those that were due while the interruption came first *)
Theorem schedule_destructor_completes_partial : forall n m c z s, reach n m c z s -> In EDestroyed (hist s) ->
  (forall i c', In (ERun i c') (hist s) -> In (EEnd i) (hist s) \/ In (EEscape i) (hist s)) /\
  (n <> 0 -> undisturbed (hist s) -> forall i d o, In (ESub i d o) (hist s) -> (forall c, In (EClose c) (hist s) -> (d <= c)%Z) -> begun (hist s) i).
Proof. intros n m c z s Hr Hd. split; [intros i c' H; exact (destroyed_ended i c' Hr Hd H)|]. intros Hn U i d o Hs Hc. exact (destroyed_begun i o Hr Hn U Hd Hs Hc). Qed.
Print Assumptions schedule_destructor_completes_partial.

Definition destroy_ok_run : list label := [LCall 0 (OSubmitAt 0); LClient 0; LCall 0 ODestroy; LClient 0; LPull 0 0; LClient 0; LWork 0; LAct 0 (APoint true); LAct 0 AEnd; LWork 0; LClient 0; LClient 0].
Lemma destroy_ok_hist : hist (after 1 0 1 0 destroy_ok_run) = [EDestroyed; EEnd 0; ERun 0 0; EClose 0; EDestroy 0; ESub 0 0 None].
Proof. vm_compute. reflexivity. Qed.
Example destroy_ok_case : hist (after 1 0 1 0 destroy_ok_run) = [EDestroyed; EEnd 0; ERun 0 0; EClose 0; EDestroy 0; ESub 0 0 None] /\ undisturbed (hist (after 1 0 1 0 destroy_ok_run)).
Proof. split; [apply destroy_ok_hist|]. split; [|intros i]; rewrite ?destroy_ok_hist; cbn; intuition discriminate. Qed.

(** ** C124: the destructor ends, unless a closure does not *)
Theorem schedule_destructor_ends : forall n m c z s c', reach n m c z s -> at_rest s -> ~ terminated (hist s) -> In (EDestroy c') (hist s) -> ~ In EDestroyed (hist s) ->
  exists i, being_run (hist s) i.
Proof. exact destroy_ends. Qed.
Print Assumptions schedule_destructor_ends.

Definition stuck_run : list label := [LCall 0 (OSubmitAt 0); LClient 0; LPull 0 0; LWork 0; LCall 0 ODestroy; LClient 0; LClient 0; LClient 0].
Lemma stuck_hist : hist (after 1 0 1 0 stuck_run) = [EClose 0; EDestroy 0; ERun 0 0; ESub 0 0 None].
Proof. vm_compute. reflexivity. Qed.
Example stuck_case : at_rest (after 1 0 1 0 stuck_run) /\ In (EDestroy 0) (hist (after 1 0 1 0 stuck_run)) /\ ~ In EDestroyed (hist (after 1 0 1 0 stuck_run)) /\ ~ terminated (hist (after 1 0 1 0 stuck_run)).
Proof. split; [resting|]. split; [rewrite stuck_hist; cbn; auto|]. split; [|intros (i & H); revert H]; rewrite ?stuck_hist; cbn; intuition discriminate. Qed.

(** ** C125: scheduling_adaptor executes the closures on the executor it is built on *)
Lemma runl_adaptor c z s ls s' : reach_adaptor c z s -> (forall t o, In (LCall t o) ls -> adaptor_op o) -> runl s ls = Some s' -> reach_adaptor c z s'.
Proof.
  revert s. induction ls as [|l ls IH]; intros s Hr Ho E; cbn in E; [congruence|].
  destruct (exec s l) as [s1|] eqn:El; [|discriminate]. apply (IH s1); [econstructor; eauto; intros t o ->; apply (Ho t); left; reflexivity|intros t o H; apply (Ho t); right; exact H|exact E].
Qed.
Definition adaptor_run : list label := [LCall 0 (OSubmitAt 2); LClient 0; LWork 0; LTick 5; LWork 0; LPull 0 0; LWork 0; LAct 0 AEnd; LWork 0].
Lemma adaptor_case : reach_adaptor 1 0 (after 1 1 1 0 adaptor_run) /\ hist (after 1 1 1 0 adaptor_run) = [EEnd 0; ERun 0 5; ESub 0 2 None].
Proof.
  split; [|vm_compute; reflexivity]. apply (@runl_adaptor 1 0%Z (init 1 1 1 0) adaptor_run); [constructor| |vm_compute; reflexivity].
  intros t o H. repeat (destruct H as [H|H]; [try discriminate H; injection H as <- <-; exact I|]). contradiction.
Qed.
Theorem scheduling_adaptor_uses_executor_refuted : ~ (forall c z s i c', reach_adaptor c z s -> ~ In (ERun i c') (hist s)).
Proof. intros H. destruct adaptor_case as (A & B). apply (H 1 0%Z _ 0 5%Z A). rewrite B. right; left; reflexivity. Qed.
Print Assumptions scheduling_adaptor_uses_executor_refuted.

(** missing: the executor; it gets nothing at all.  What the thread of the adaptor executes it executes once and not early *)
Theorem scheduling_adaptor_uses_executor_partial : forall c z s, reach_adaptor c z s ->
  (forall i e c', ~ In (EResub i e c') (hist s)) /\ (forall i, starts i (hist s) <= 1) /\
  (forall i c', In (ERun i c') (hist s) -> exists d, In (ESub i d None) (hist s) /\ (d <= c')%Z).
Proof.
  intros c z s Hr. destruct (schedule_once_not_early (adaptor_is Hr)) as (A & B & _). split; [intros i e c'; exact (adaptor_none i e c' Hr)|]. split; [exact A|exact B].
Qed.
Print Assumptions scheduling_adaptor_uses_executor_partial.
