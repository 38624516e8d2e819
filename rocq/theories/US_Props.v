(** * The properties of user_scheduler *)
From Verif Require Import US_Model US_Spec US_Inv SQ_Spec SQ_Proofs.
Set Implicit Arguments.

Local Lemma prefix_grow a c x : a ++ x = c -> prefix a c.
Proof. intros <-. exists x. reflexivity. Qed.

(** ** C128: every closure is started at most once, in the order of submission, and none gets lost *)

Definition scheduler_order_stmt (allowed : op -> bool) : Prop :=
  forall n s, reach allowed n s ->
    ub s = false /\
    (* the closures started so far are the first ones accepted, in that order, each once *)
    prefix (started (hist s)) (accepted (hist s)) /\ NoDup (started (hist s)) /\
    (* one accepted and not yet started is what try_executing_one gets next *)
    (forall k rest t, accepted (hist s) = started (hist s) ++ k :: rest -> nth_error (ths s) t = Some [] -> dead s = false ->
       exists s', runl allowed s [LCall t OTry; LGo t] = Some s' /\ hist s' = EStart t k :: hist s).

(** user_scheduler::run_queued_closures is [while (q.empty()) ...]: the queued closures are moved out of the scheduler and dropped *)
Theorem scheduler_order_refuted : ~ scheduler_order_stmt all_ops.
Proof.
  intros H.
  assert (R : exists s, runl all_ops (us0 1) [LCall 0 OQueued; LGo 0] = Some s /\ ub s = true) by (eexists; split; [vm_compute; reflexivity|reflexivity]).
  destruct R as (s & R & U). destruct (H 1 s) as (F & _); [exists [LCall 0 OQueued; LGo 0]; exact R|]. congruence.
Qed.
Print Assumptions scheduler_order_refuted.

(** What it does, whenever it is called: of an empty queue it takes the front, which is undefined behaviour; of any other it throws away what it holds and executes nothing *)
Theorem run_queued_closures_partial :
  forall n s t, reach no_queued n s -> nth_error (ths s) t = Some [] -> dead s = false ->
    exists s', runl all_ops s [LCall t OQueued; LGo t] = Some s' /\
      (accepted (hist s) = started (hist s) -> ub s' = true) /\
      (accepted (hist s) <> started (hist s) -> ub s' = false /\ hist s' = EQueued t :: hist s /\ dv_stored (q s') = []).
Proof.
  intros n s t R T D. pose proof (inv_reach R) as I.
  assert (L : t < length (ths s)) by (apply nth_error_Some; congruence).
  cbn [runl exec]. unfold exec at 1. rewrite (i_ub I), D. cbn [orb all_ops]. rewrite T. cbn [call].
  unfold exec. cbn [set_th set_q ub dead ths]. rewrite (i_ub I), D. cbn [orb]. rewrite nth_upd_same by exact L. cbn [go].
  assert (Y : dv_empty (dv_copy (q s)) = dv_empty (q s)) by reflexivity. rewrite Y.
  destruct (dv_empty (q s)) eqn:Q.
  - eexists. split; [reflexivity|]. split; [reflexivity|]. intros N. exfalso. apply N, empty_all; auto.
  - eexists. split; [reflexivity|]. split.
    + intros E. exfalso. apply (f_equal (@length nat)) in E. rewrite (i_ac I), <- (i_st I), app_length in E.
      destruct (dv_stored (q s)) as [|k l] eqn:S; [|cbn in E; lia]. apply (dv_empty_spec (i_wf I)) in S. congruence.
    + intros _. cbn. split; [exact (i_ub I)|]. split; [reflexivity|]. unfold dv_stored, dv_moved. cbn. apply skipn_nil.
Qed.
Print Assumptions run_queued_closures_partial.

(** Full statement: [scheduler_order_stmt all_ops].  Proved: as long as run_queued_closures is not called.  Missing: it (refuted above). *)
Theorem scheduler_order_partial : scheduler_order_stmt no_queued.
Proof.
  intros n s R. pose proof (inv_reach R) as I. split; [exact (i_ub I)|].
  split; [rewrite (i_ac I); exact (prefix_grow _ _ (i_st I))|]. split.
  { assert (N : NoDup (started (hist s) ++ dv_stored (q s))) by (rewrite (i_st I); apply seq_NoDup).
    exact (NoDup_front _ _ N). }
  intros k rest t A T D.
  assert (L : t < length (ths s)) by (apply nth_error_Some; congruence).
  rewrite (i_ac I), <- (i_st I) in A. apply app_inv_head in A.
  destruct (dv_pop_spec (i_wf I) A) as (Hf & _).
  cbn [runl exec]. unfold exec at 1. rewrite (i_ub I), D. cbn [orb no_queued]. rewrite T. cbn [call].
  unfold exec. cbn [set_th ub dead ths]. rewrite (i_ub I), D. cbn [orb]. rewrite nth_upd_same by exact L. cbn [go set_th q].
  assert (E : dv_empty (q s) = false).
  { destruct (dv_empty (q s)) eqn:E; [|reflexivity]. apply (dv_empty_spec (i_wf I)) in E. congruence. }
  rewrite E. unfold pull_run, dv_pull. cbn [set_th q]. rewrite Hf. eexists. split; reflexivity.
Qed.
Print Assumptions scheduler_order_partial.

(** two threads, four closures, one of them submitted by a closure, one of them throwing *)
Definition some_labels : list label :=
  [LCall 0 OSubmit; LCall 1 OSubmit; LCall 1 OSubmit; LCall 0 OLoop; LGo 0; LGo 0; LCall 0 OSubmit; LCall 1 OTry; LGo 1; LEnd 0 true false; LEnd 1 false false;
   LCall 1 OClose; LCall 1 OSubmit; LGo 0; LGo 0; LEnd 0 false false].
Example some_reached : exists s, runl no_queued (us0 2) some_labels = Some s /\
  started (hist s) = [0; 1; 2] /\ accepted (hist s) = [0; 1; 2; 3] /\ In EReject (hist s) /\ In (ETry 1 true) (hist s) /\ nth_error (ths s) 1 = Some [].
Proof. eexists. split; [vm_compute; reflexivity|]. cbn. repeat split; auto 20. Qed.

(** ** C129: loop goes on until there are no more closures to run *)

Definition loop_end_stmt (allowed : op -> bool) : Prop :=
  forall n s t, reach allowed n s -> In (ELoopEnd t) (hist s) ->
    (In EClose (hist s) \/ In EDestroyed (hist s)) /\ started (hist s) = accepted (hist s).

Definition throw_labels : list label :=
  [LCall 0 OSubmit; LCall 0 OSubmit; LCall 0 OClose; LCall 0 OLoop; LGo 0; LGo 0; LEnd 0 true false].
Theorem loop_end_refuted : ~ loop_end_stmt no_queued.
Proof.
  intros H.
  assert (R : exists s, runl no_queued (us0 1) throw_labels = Some s /\ In (ELoopEnd 0) (hist s) /\ started (hist s) = [0] /\ accepted (hist s) = [0; 1]).
  { eexists. split; [vm_compute; reflexivity|]. cbn. repeat split; auto. }
  destruct R as (s & R & E & S & A). destruct (H 1 s 0) as (_ & X); [exists throw_labels; exact R|exact E|]. rewrite S, A in X. discriminate.
Qed.
Print Assumptions loop_end_refuted.

(** Full statement: [loop_end_stmt all_ops].  Proved: without run_queued_closures, loop returns only when the scheduler has been closed and
    either every accepted closure has been started or the last thing to happen was that a closure executed by this very loop threw; so the full statement holds when no closure throws.
    Missing: closures that throw (refuted above). *)
Theorem loop_end_partial :
  forall n s t, reach no_queued n s ->
    (forall h2 h1, hist s = h2 ++ ELoopEnd t :: h1 ->
       (In EClose h1 \/ In EDestroyed h1) /\ ((exists k h0, h1 = EEnd t k true :: h0) \/ accepted h1 = started h1)) /\
    (nothing_thrown (hist s) -> In (ELoopEnd t) (hist s) ->
       (In EClose (hist s) \/ In EDestroyed (hist s)) /\ started (hist s) = accepted (hist s)).
Proof.
  intros n s t R. pose proof (inv_reach R) as I. split.
  - intros h2 h1 E. pose proof (i_good I) as G. rewrite E in G. exact (goods_mid _ _ _ G).
  - intros NT J. apply in_split in J. destruct J as (h2 & h1 & E). pose proof (i_good I) as G. rewrite E in G.
    destruct (goods_mid _ _ _ G) as (C & [(k & h0 & X)|X]).
    { exfalso. apply (NT t k). rewrite E, X. apply in_or_app. right. right. left. reflexivity. }
    assert (C1 : closed_in (ELoopEnd t :: h1)) by (destruct C as [Y|Y]; [left|right]; right; exact Y).
    split; [destruct C as [Y|Y]; [left|right]; rewrite E; apply in_or_app; right; right; exact Y|].
    pose proof (@accepted_after h2 (ELoopEnd t :: h1) G C1) as A. destruct (started_grow h2 (ELoopEnd t :: h1)) as (c & S).
    cbn [accepted started] in A, S. rewrite <- E in A, S.
    pose proof (i_st I) as P. rewrite <- (i_ac I), A, S, X in P. rewrite <- app_assoc in P.
    assert (c ++ dv_stored (q s) = []) as Z by (apply (app_inv_head (started h1)); rewrite app_nil_r; exact P).
    apply app_eq_nil in Z. destruct Z as (-> & _). rewrite A, S, X, app_nil_r. reflexivity.
Qed.
Print Assumptions loop_end_partial.

Definition drain_labels : list label :=
  [LCall 0 OSubmit; LCall 1 OLoop; LGo 1; LCall 0 OSubmit; LGo 1; LCall 0 OClose; LEnd 1 false false; LGo 1; LGo 1; LEnd 1 false false; LGo 1].
Example drained : exists s, runl no_queued (us0 2) drain_labels = Some s /\ In (ELoopEnd 1) (hist s) /\ (forallb (fun e => match e with EEnd _ _ b => negb b | _ => true end) (hist s) = true) /\
  accepted (hist s) = [0; 1] /\ forallb idle (ths s) = true.
Proof. eexists. split; [vm_compute; reflexivity|]. cbn. repeat split; auto. Qed.

(** ** C130: when the destructor has returned, every accepted closure has been executed to its end *)

Definition destroyed_done_stmt (allowed : op -> bool) : Prop :=
  forall n s, reach allowed n s -> In EDestroyed (hist s) -> forall k, In k (accepted (hist s)) -> exists t b, In (EEnd t k b) (hist s).

Theorem destroyed_done_refuted : ~ destroyed_done_stmt no_queued.
Proof.
  intros H.
  assert (R : exists s, runl no_queued (us0 1) [LCall 0 OSubmit; LDestroy] = Some s /\ hist s = [EDestroyed; EAccept 0]) by (eexists; split; vm_compute; reflexivity).
  destruct R as (s & R & E).
  destruct (H 1 s) with (k := 0) as (t & b & J); [exists [LCall 0 OSubmit; LDestroy]; exact R|rewrite E; left; reflexivity|rewrite E; left; reflexivity|].
  rewrite E in J. cbn in J. destruct J as [J|[J|[]]]; discriminate.
Qed.
Print Assumptions destroyed_done_refuted.

(** Full statement: [destroyed_done_stmt all_ops].  Proved: without run_queued_closures, every closure that was started has come to its end before the destructor, and so has
    every closure accepted if some thread's loop() had returned and nothing had been thrown.  Missing: closures still queued when the destructor is called (refuted above). *)
Theorem destroyed_done_partial :
  forall n s h2 h1, reach no_queued n s -> hist s = h2 ++ EDestroyed :: h1 ->
    (forall k, In k (started h1) -> exists t b, In (EEnd t k b) h1) /\
    (forall t, nothing_thrown h1 -> In (ELoopEnd t) h1 -> forall k, In k (accepted (hist s)) -> exists t b, In (EEnd t k b) h1).
Proof.
  intros n s h2 h1 R E. pose proof (inv_reach R) as I. pose proof (i_good I) as G. rewrite E in G.
  pose proof (goods_mid _ _ _ G) as D. cbn in D. split; [exact D|].
  intros t NT J k K. apply D.
  apply in_split in J. destruct J as (h4 & h3 & F).
  assert (G1 : goods h1).
  { clear - G. induction h2 as [|x h2 IH]; cbn in G; [exact (proj2 G)|exact (IH (proj2 G))]. }
  assert (G3 := G1). rewrite F in G3. destruct (goods_mid _ _ _ G3) as (C & [(k' & h0 & X)|X]).
  { exfalso. apply (NT t k'). rewrite F, X. apply in_or_app. right. right. left. reflexivity. }
  assert (C3 : closed_in (ELoopEnd t :: h3)) by (destruct C as [Y|Y]; [left|right]; right; exact Y).
  assert (A : accepted (hist s) = accepted h3).
  { replace (hist s) with ((h2 ++ EDestroyed :: h4) ++ ELoopEnd t :: h3) in * by (rewrite E, F, <- app_assoc; reflexivity).
    rewrite accepted_after; [reflexivity| |exact C3]. rewrite F in G. rewrite <- app_assoc. exact G. }
  rewrite A, X in K. destruct (started_grow h4 (ELoopEnd t :: h3)) as (c & S). rewrite F, S. apply in_or_app. left. exact K.
Qed.
Print Assumptions destroyed_done_partial.
Example drained_destroyed : exists s, runl no_queued (us0 2) (drain_labels ++ [LDestroy]) = Some s /\ In EDestroyed (hist s).
Proof. eexists. split; [vm_compute; reflexivity|]. left. reflexivity. Qed.

(** ** C131: try_executing_one returns whether a closure has been executed, and reschedule_until returns true only if pred() said so after one *)

(** [executed t h]: the last thing observed is that thread [t] has executed a closure *)
Definition executed (t : nat) (h : list event) : Prop := exists k b h0, h = EEnd t k b :: h0.
Definition try_result_stmt (allowed : op -> bool) : Prop :=
  forall n s t r h2 h1, reach allowed n s -> hist s = h2 ++ ETry t r :: h1 ->
    (r = true -> executed t h1) /\ (r = false -> ~ executed t h1 /\ started h1 = accepted h1).

Definition swallow_labels : list label := [LCall 0 OSubmit; LCall 0 OTry; LGo 0; LEnd 0 true false].
Theorem try_result_refuted : ~ try_result_stmt no_queued.
Proof.
  intros H.
  assert (R : exists s, runl no_queued (us0 1) swallow_labels = Some s /\ hist s = [ETry 0 false; EEnd 0 0 true; EStart 0 0; EAccept 0]) by (eexists; split; vm_compute; reflexivity).
  destruct R as (s & R & E).
  destruct (H 1 s 0 false [] [EEnd 0 0 true; EStart 0 0; EAccept 0]) as (_ & X); [exists swallow_labels; exact R|exact E|].
  destruct X as (X & _); [reflexivity|]. apply X. exists 0, true, [EStart 0 0; EAccept 0]. reflexivity.
Qed.
Print Assumptions try_result_refuted.

(** Full statement: [try_result_stmt all_ops].  Proved: without run_queued_closures, true means that a closure has just been executed by this thread and returned;
    false means that there was none, or that it threw (the exception goes nowhere); the same for reschedule_until.  Missing: closures that throw (refuted above). *)
Theorem try_result_partial :
  forall n s t r h2 h1, reach no_queued n s -> hist s = h2 ++ ETry t r :: h1 \/ hist s = h2 ++ EUntil t r :: h1 ->
    (r = true -> exists k h0, h1 = EEnd t k false :: h0) /\
    (r = false -> (exists k h0, h1 = EEnd t k true :: h0) \/ started h1 = accepted h1).
Proof.
  intros n s t r h2 h1 R E. pose proof (inv_reach R) as I. pose proof (i_good I) as G.
  destruct E as [E|E]; rewrite E in G; pose proof (goods_mid _ _ _ G) as D; destruct r; cbn in D; (split; intros X; try discriminate X).
  - exact D.
  - destruct D as [D|D]; [left; exact D|right; symmetry; exact D].
  - exact D.
  - destruct D as [D|D]; [left; exact D|right; symmetry; exact D].
Qed.
Print Assumptions try_result_partial.
Example until_reached : exists s h2 h1, runl no_queued (us0 1) [LCall 0 OSubmit; LCall 0 OSubmit; LCall 0 OUntil; LGo 0; LEnd 0 false false; LGo 0; LEnd 0 false true; LCall 0 OTry; LGo 0] = Some s /\
  hist s = h2 ++ EUntil 0 true :: h1 /\ hist s = [] ++ ETry 0 false :: tl (hist s).
Proof. eexists. exists [ETry 0 false]. eexists. split; [vm_compute; reflexivity|]. split; reflexivity. Qed.
