(** * C79-C82: when_all and when_any *)
From Verif Require Import WN_Proofs.
Import ListNotations.

(** ** C79: the future when_all returns *)

(** It becomes ready only when every future given is; its value is then those futures, in the order given. *)
Theorem C79_when_all_value : forall fm waits inp f0 c l, fresh f0 -> reachable KAll fm waits inp f0 c -> out c = Some l ->
  l = inp /\ Forall (fun i => ready (fu c i)) inp.
Proof. intros. eapply all_value; eauto. Qed.
Print Assumptions C79_when_all_value.

(** It does become ready: when neither the call nor its thread can go on, the call has thrown, or it has returned and its future is ready unless one of the
    futures given is still to be completed by another thread.  And they can go on only a bounded number of times, whatever the other threads do. *)
Theorem C79_when_all_completes : forall fm waits inp f0 c, fresh f0 -> reachable KAll fm waits inp f0 c -> idle KAll fm waits inp c -> ~ failing c ->
  threw c \/ returned c /\ (out c = Some inp \/ exists i, In i inp /\ elsewhere (fu c i)).
Proof. intros. eapply idle_all; eauto. Qed.
Print Assumptions C79_when_all_completes.

Theorem C79_steps_bounded : forall kd fm waits inp f0 ls c, run kd fm waits inp (wn0 f0) ls = Some c -> own_steps ls <= 4 * length inp + 5.
Proof. exact own_steps_bound. Qed.
Print Assumptions C79_steps_bounded.

(** ** C80: the deferred functions among when_all's futures are executed once, before the call returns *)
Theorem C80_when_all_runs_deferred_refuted :
  exists waits inp f0 c, fresh f0 /\ reachable KAll Tup waits inp f0 c /\ returned c /\ Exists (fun i => deferred (fu c i)) inp.
Proof.
  exists true, [0; 1], (fun i => if i =? 0 then Deferred (RVal 7) else Pending).
  destruct (run KAll Tup true [0; 1] (wn0 (fun i => if i =? 0 then Deferred (RVal 7) else Pending)) [LCall; LCall; LCall]) as [c|] eqn:E; [|vm_compute in E; discriminate].
  exists c. split; [intros [|[|i]] w o; discriminate|]. split; [exists [LCall; LCall; LCall]; exact E|].
  vm_compute in E. injection E as <-. split; [reflexivity|]. constructor. exists (RVal 7). reflexivity.
Qed.
Print Assumptions C80_when_all_runs_deferred_refuted.

(** the overload that takes a range does execute them all (those another thread has begun apart) *)
Theorem C80_when_all_runs_deferred_partial : forall waits inp f0 c, fresh f0 -> reachable KAll Vec waits inp f0 c -> returned c ->
  Forall (fun i => ~ deferred (fu c i)) inp.
Proof. intros. eapply all_vec_deferred; eauto. Qed.
Print Assumptions C80_when_all_runs_deferred_partial.

(** the other one leaves a deferred function for later only if one of the futures after it was not deferred *)
Theorem C80_when_all_tuple_partial : forall waits inp f0 c pre i post, fresh f0 -> reachable KAll Tup waits inp f0 c -> returned c ->
  NoDup inp -> inp = pre ++ i :: post -> deferred (fu c i) -> exists j, In j post /\ (~ deferred (f0 j) \/ by_other j c).
Proof.
  intros waits inp f0 c pre i post Hf HR Hr ND E D. destruct (@all_tup_deferred waits inp f0 c Hf pre i post HR Hr E D) as (j & Hj & [H|[H|H]]); [..|easy]; exists j; auto.
Qed.
Print Assumptions C80_when_all_tuple_partial.

(** no deferred function is executed twice, and one that is no longer deferred has been executed *)
Theorem C80_executed_once : forall kd fm waits inp f0 c i, fresh f0 -> reachable kd fm waits inp f0 c ->
  execs i (hist c) = match f0 i, fu c i with Deferred _, Deferred _ => 0 | Deferred _, _ => 1 | _, _ => 0 end.
Proof. intros. eapply exec_once; eauto. Qed.
Print Assumptions C80_executed_once.

(** what the call executes is complete when it returns *)
Theorem C80_complete_on_return : forall kd fm waits inp f0 c, fresh f0 -> reachable kd fm waits inp f0 c -> returned c -> forall i o, fu c i <> Busy ByCall o.
Proof. intros. eapply ret_done; eauto. Qed.
Print Assumptions C80_complete_on_return.

(** the call waits for no other thread: it can always take its next step (with C79_steps_bounded: it returns) *)
Theorem C80_call_does_not_wait : forall kd fm waits inp f0 c, fresh f0 -> reachable kd fm waits inp f0 c -> in_call c -> ~ failing c ->
  exists c', call_step kd fm waits inp c = Some c'.
Proof. intros. eapply no_wait; eauto. Qed.
Print Assumptions C80_call_does_not_wait.

(** ** C81: when_any *)
Theorem C81_when_any_value : forall fm waits inp f0 c l, fresh f0 -> reachable KAny fm waits inp f0 c -> out c = Some l ->
  l = inp /\ (inp <> [] -> Exists (fun i => ready (fu c i)) inp).
Proof. intros. eapply any_value; eauto. Qed.
Print Assumptions C81_when_any_value.

Theorem C81_when_any_completes : forall fm waits inp f0 c, fresh f0 -> reachable KAny fm waits inp f0 c -> idle KAny fm waits inp c -> ~ failing c ->
  threw c \/ returned c /\ (out c = Some inp \/ Forall (fun i => elsewhere (fu c i)) inp).
Proof. intros. eapply idle_any; eauto. Qed.
Print Assumptions C81_when_any_completes.

(** if one of the futures was ready, or deferred and not executed by another thread, the future is ready when the call returns *)
Theorem C81_when_any_at_once : forall fm waits inp f0 c i, fresh f0 -> reachable KAny fm waits inp f0 c -> returned c -> In i inp ->
  ready (f0 i) \/ deferred (f0 i) /\ ~ by_other i c -> out c = Some inp.
Proof. intros. eapply any_at_once; eauto. Qed.
Print Assumptions C81_when_any_at_once.

Theorem C81_when_any_executes_one : forall fm waits inp f0 c, fresh f0 -> reachable KAny fm waits inp f0 c -> length (by_call (hist c)) <= 1.
Proof. intros. eapply any_one; eauto. Qed.
Print Assumptions C81_when_any_executes_one.

(** the futures are checked in the order supplied: refuted for the overload that takes the futures one by one, which executes a deferred function although a
    future before it is ready *)
Theorem C81_when_any_in_order_refuted :
  exists waits inp f0 c i, fresh f0 /\ reachable KAny Tup waits inp f0 c /\ In (EExec ByCall i) (hist c) /\
    ~ exists pre post, inp = pre ++ i :: post /\ Forall (passed_over f0 c) pre.
Proof.
  exists true, [0; 1], (fun i => if i =? 0 then Ready (RVal 7) else Deferred (RVal 8)).
  destruct (run KAny Tup true [0; 1] (wn0 (fun i => if i =? 0 then Ready (RVal 7) else Deferred (RVal 8))) [LCall; LCall]) as [c|] eqn:E; [|vm_compute in E; discriminate].
  exists c, 1. split; [intros [|[|i]] w o; discriminate|]. split; [exists [LCall; LCall]; exact E|].
  vm_compute in E. injection E as <-. split; [now left|].
  intros (pre & post & Ei & HP). destruct pre as [|p pre]; [discriminate|]. injection Ei as <- Ei.
  inversion HP as [|? ? [N _] _]. apply N. now exists (RVal 7).
Qed.
Print Assumptions C81_when_any_in_order_refuted.

Theorem C81_when_any_in_order_partial : forall waits inp f0 c i, fresh f0 -> reachable KAny Vec waits inp f0 c -> In (EExec ByCall i) (hist c) ->
  exists pre post, inp = pre ++ i :: post /\ Forall (passed_over f0 c) pre.
Proof. intros. eapply any_vec_first; eauto. Qed.
Print Assumptions C81_when_any_in_order_partial.

(** the order in which that overload does check them *)
Theorem C81_when_any_tuple_order : forall waits inp f0 c i, fresh f0 -> reachable KAny Tup waits inp f0 c -> In (EExec ByCall i) (hist c) ->
  exists pre post, inp = pre ++ i :: post /\ Forall (passed_over f0 c) post.
Proof. intros. eapply any_tup_last; eauto. Qed.
Print Assumptions C81_when_any_tuple_order.

(** ** C82: when the thread cannot be started, the call throws *)
Theorem C82_thread_failure_throws_refuted : forall kd fm,
  (exists inp f0 c, fresh f0 /\ reachable kd fm true inp f0 c /\ failing c) /\
  (forall inp f0 c, fresh f0 -> reachable kd fm true inp f0 c -> failing c -> forall ls c', run kd fm true inp c ls = Some c' -> ~ threw c').
Proof.
  intros kd fm. split.
  - exists [0], (fun _ => Pending).
    destruct (run kd fm true [0] (wn0 (fun _ => Pending)) (match kd, fm with KAll, Tup => [LCall; LCall; LFail] | _, _ => [LCall; LCall; LCall; LFail] end)) as [c|] eqn:E.
    + exists c. split; [intros i w o; discriminate|]. split; [eexists; exact E|]. destruct kd, fm; vm_compute in E; injection E as <-; reflexivity.
    + destruct kd, fm; vm_compute in E; discriminate.
  - intros inp f0 c Hf HR Hd ls c' H. unfold threw. rewrite (@fail_hangs inp f0 c Hf kd fm HR Hd ls c' H). discriminate.
Qed.
Print Assumptions C82_thread_failure_throws_refuted.

(** it does in BOOST_THREAD_VERSION 5, where the destructor of the state does not wait *)
Theorem C82_thread_failure_throws_partial : forall kd fm inp f0 c, reachable kd fm false inp f0 c -> failing c ->
  exists c', call_step kd fm false inp c = Some c' /\ threw c'.
Proof. intros. eapply fail_throws; eauto. Qed.
Print Assumptions C82_thread_failure_throws_partial.

(** ** Cases that meet the hypotheses *)
Definition f_ex (i : nat) : fut := match i with 0 => Deferred (RExc 3) | 1 => Ready (RVal 1) | 2 => Pending | _ => Deferred (RVal 4) end.
Example f_ex_fresh : fresh f_ex.
Proof. intros [|[|[|i]]] w o; discriminate. Qed.
Definition ex_run kd fm ls := run kd fm true [0; 1; 2; 3] (wn0 f_ex) ls.
Ltac witness kd fm ls := let c := fresh "c" in let E := fresh "E" in
  destruct (ex_run kd fm ls) as [c|] eqn:E; [|vm_compute in E; discriminate]; exists c; split; [reflexivity|]; vm_compute in E; injection E as <-.

(** when_all on a range: both deferred functions execute, then the thread waits for the pending future *)
Example when_all_vec : exists c, ex_run KAll Vec (repeat LCall 9 ++ repeat LWork 2 ++ [LSet 2 (RVal 5)] ++ repeat LWork 3) = Some c /\
  returned c /\ out c = Some [0; 1; 2; 3] /\ hist c = [EExec ByCall 3; EExec ByCall 0] /\ idle KAll Vec true [0; 1; 2; 3] c.
Proof. witness KAll Vec (repeat LCall 9 ++ repeat LWork 2 ++ [LSet 2 (RVal 5)] ++ repeat LWork 3). repeat split. Qed.
(** when_all on a tuple: the last function executes on the calling thread, the first one on the new thread *)
Example when_all_tup : exists c, ex_run KAll Tup (repeat LCall 5 ++ repeat LWork 3 ++ [LSet 2 (RVal 5)] ++ repeat LWork 3) = Some c /\
  returned c /\ out c = Some [0; 1; 2; 3] /\ hist c = [EExec ByWork 0; EExec ByCall 3].
Proof. witness KAll Tup (repeat LCall 5 ++ repeat LWork 3 ++ [LSet 2 (RVal 5)] ++ repeat LWork 3). repeat split. Qed.
Example when_any_vec : exists c, ex_run KAny Vec (repeat LCall 4) = Some c /\ returned c /\ out c = Some [0; 1; 2; 3] /\ hist c = [EExec ByCall 0].
Proof. witness KAny Vec (repeat LCall 4). repeat split. Qed.
Example when_any_tup : exists c, ex_run KAny Tup (repeat LCall 4) = Some c /\ returned c /\ out c = Some [0; 1; 2; 3] /\ hist c = [EExec ByCall 3].
Proof. witness KAny Tup (repeat LCall 4). repeat split. Qed.
