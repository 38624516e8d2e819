(** * Theorems: interruption, sleeping and joining on Windows (C112-C116)

    Model: WI_Model.v; specification: WI_Spec.v.  [boost] tells which threads are the library's; [fallible] whether waitable timers can fail. *)
From Verif Require Import WI_Model WI_Spec WI_Proofs WI_Live.
Set Implicit Arguments.

(** ** C112: each request is delivered once, at an interruption point, with interruption enabled *)
Theorem win_interruption_exactly_once : forall fallible boost n r s, reach fallible boost n r s -> interruptions_ok boost (hist s).
Proof. intros f boost n r s Hr. exact (i_int (inv_reach Hr)). Qed.
Print Assumptions win_interruption_exactly_once.

Definition after (boost : list bool) (ls : list label) : sys := match runl (init boost 0 0) ls with Some s => s | None => init boost 0 0 end.
Lemma runl_reach f boost n r s ls s' : reach f boost n r s -> Forall (allowed f) ls -> runl s ls = Some s' -> reach f boost n r s'.
Proof.
  intros Hr Ha. revert s Hr. induction Ha as [|l ls Hl Ha IH]; intros s Hr E; cbn in E; [congruence|].
  destruct (exec s l) as [s1|] eqn:El; [|discriminate]. apply (IH s1); [econstructor; eauto|exact E].
Qed.
Lemma after_reach f boost ls : Forall (allowed f) ls -> runl (init boost 0 0) ls <> None -> reach f boost 0 0 (after boost ls).
Proof.
  intros Ha H. unfold after. destruct (runl (init boost 0 0) ls) as [s|] eqn:E; [|congruence]. eapply runl_reach; eauto. constructor.
Qed.

Ltac all_allowed := repeat (apply Forall_cons; [cbn; auto|]); apply Forall_nil.

(** sleep_for(1 s), join() of thread 1 and try_join_until of it on the user's clock *)
Definition nap (d : Z) : kind := Kind None (Mono d) true.
Definition join_ (j : nat) : kind := Kind (Some j) Never true.
Definition join_until (j : nat) (d : Z) : kind := Kind (Some j) (Real d) true.

(** thread 0 is interrupted while it sleeps, and sleeps again with interruption disabled; a second request stays pending *)
Definition int_run : list label :=
  [LCall 0 (OWait (nap 1000000000)); LRun 0; LEnter 0 true; LCall 1 (OInterrupt 0); LRun 0; LRun 0;
   LCall 0 ODisable; LCall 1 (OInterrupt 0); LCall 0 OPoint; LCall 0 (OWait (nap 1000000000)); LRun 0; LEnter 0 true; LTick 1000000000 0; LRun 0; LRun 0;
   LCall 0 OUndisable; LCall 1 (OAsk 0); LCall 0 OPoint; LRun 0].
Example int_case : reach false [true; true] 0 0 (after [true; true] int_run) /\
  hist (after [true; true] int_run) =
    [EThrow 0; EPoint 0; EAsk 0 true; EUndis 0; ERet 0 (nap 1000000000) false 1000000000 0; EWait 0 (nap 1000000000) 0 0; EPass 0; EReq 0; EDis 0;
     EThrow 0; EReq 0; EWait 0 (nap 1000000000) 0 0].
Proof. split; [apply after_reach; [all_allowed|vm_compute; discriminate]|vm_compute; reflexivity]. Qed.

(** ** C113: interrupt() wakes its target *)
(** No schedule leaves a thread in a sleep or a join that it cannot leave while a request is pending; it leaves within 15 steps of its own. *)
Theorem win_interrupt_wakes : forall fallible boost n r s t k, reach fallible boost n r s ->
  doing t (hist s) = Waits k -> k_ipt k = true -> interruptible boost t (hist s) = true -> pending t (hist s) = true ->
  ~ stuck s t /\ ((fallible = false \/ Forall soon (hist s)) -> ends_now fallible t s).
Proof.
  intros f boost n r s t k Hr Hd Hk Hi Hp. split.
  - intros Hst. destruct (@thread_exists _ _ _ _ _ _ _ Hr Hd) as [x Hx]. destruct (@asleep _ _ _ _ _ _ _ Hr Hst Hd x Hx) as (A & _). rewrite (A Hk Hi) in Hp. discriminate.
  - intros Hs. eapply call_ends; eauto. left. auto.
Qed.
Print Assumptions win_interrupt_wakes.

Example wakes_case : let s := after [true; true] [LCall 0 (OWait (join_ 1)); LRun 0; LRun 0; LRun 0; LEnter 0 true; LCall 1 (OInterrupt 0)] in
  reach false [true; true] 0 0 s /\ doing 0 (hist s) = Waits (join_ 1) /\ interruptible [true; true] 0 (hist s) = true /\ pending 0 (hist s) = true.
Proof. cbv zeta. split; [apply after_reach; [all_allowed|vm_compute; discriminate]|vm_compute; auto]. Qed.

(** ** C114: joins and sleeps return the truth *)
Theorem win_joins_and_sleeps_right : forall fallible boost n r s, reach fallible boost n r s -> returns_ok (hist s).
Proof. intros f boost n r s Hr. exact (i_ret (inv_reach Hr)). Qed.
Print Assumptions win_joins_and_sleeps_right.

(** thread 0 tries to join thread 1 until the user's clock shows 300 ms; the first round times out, in the second one thread 1 ends *)
Example right_case : let s := after [true; true]
    ([LCall 0 (OWait (join_until 1 300000000)); LRun 0; LRun 0; LRun 0; LEnter 0 true; LTick 100000000 100000000; LRun 0; LRun 0; LRun 0; LRun 0; LEnter 0 false;
      LCall 1 OExit; LRun 0; LRun 0]) in
  reach true [true; true] 0 0 s /\ hist s = [ERet 0 (join_until 1 300000000) true 100000000 100000000; ERel 1 0; EFin 1; EWait 0 (join_until 1 300000000) 0 0].
Proof. cbv zeta. split; [apply after_reach; [all_allowed|vm_compute; discriminate]|vm_compute; reflexivity]. Qed.

(** ** C115: timed joins and sleeps end *)
(** From 1 ms after its time on, a call cannot go on. *)
Definition C115_ends (fallible : bool) (h_ok : list event -> Prop) : Prop := forall boost n r s t k d, reach fallible boost n r s -> h_ok (hist s) ->
  doing t (hist s) = Waits k -> k_dl k = Mono d -> d + 1000000 <= now s -> ~ stuck s t /\ ends_now fallible t s.

(** With working timers, or times less than 49 days ahead *)
Theorem win_timed_calls_end_partial : forall fallible, C115_ends fallible (fun h => fallible = false \/ Forall soon h).
Proof.
  intros f boost n r s t k d Hr Hs Hd Hk Hn.
  assert (E : ends_now f t s) by (eapply call_ends; eauto; right; right; eauto). split; [|exact E].
  intros Hst. destruct E as [_ E]. destruct (E [] s (Forall_nil _) eq_refl) as [_ E']. rewrite (E' Hst) in Hd. discriminate.
Qed.
Print Assumptions win_timed_calls_end_partial.

(** Without timers, 2^32 - 1 ms are taken for INFINITE: the call never ends. *)
Theorem win_timed_calls_end_refuted : ~ C115_ends true (fun _ => True).
Proof.
  intros H. pose (s := after [true] [LCall 0 (OWait (nap 4294967295000000)); LRun 0; LEnter 0 false; LTick 5000000000000000 0]).
  assert (Hr : reach true [true] 0 0 s) by (apply after_reach; [all_allowed|vm_compute; discriminate]).
  destruct (H [true] 0 0 s 0%nat (nap 4294967295000000) 4294967295000000 Hr I) as [Hn _]; [reflexivity|reflexivity|vm_compute; discriminate|].
  apply Hn. split; [|split]; vm_compute; reflexivity.
Qed.
Print Assumptions win_timed_calls_end_refuted.

(** A user's clock that is set past the time is noticed within 101 ms. *)
Theorem win_clock_set_forward : forall fallible boost n r s t k d dm dr s1, reach fallible boost n r s -> (fallible = false \/ Forall soon (hist s)) ->
  stuck s t -> doing t (hist s) = Waits k -> k_dl k = Real d ->
  exec s (LTick dm dr) = Some s1 -> 101000000 <= dm -> d <= real s1 -> ~ stuck s1 t /\ ends_now fallible t s1.
Proof.
  intros f boost n r s t k d dm dr s1 Hr Hs Hst Hd Hk He Hdm Hdr.
  assert (E : ends_now f t s1) by (eapply clock_forward; eauto; exact Hdm). split; [|exact E].
  intros Hst'. destruct E as [_ E]. destruct (E [] s1 (Forall_nil _) eq_refl) as [_ E']. specialize (E' Hst').
  cbn in He. destruct (0 <=? dm); [|discriminate]. injection He as <-. cbn in E'. congruence.
Qed.
Print Assumptions win_clock_set_forward.

Example timed_case : let s := after [true; true] [LCall 0 (OWait (join_until 1 3600000000000)); LRun 0; LRun 0; LRun 0; LEnter 0 true] in
  reach false [true; true] 0 0 s /\ stuck s 0 /\ doing 0 (hist s) = Waits (join_until 1 3600000000000).
Proof.
  cbv zeta. split; [apply after_reach; [all_allowed|vm_compute; discriminate]|]. split; [|reflexivity].
  split; [|split]; vm_compute; reflexivity.
Qed.
Example timed_case_mono : let s := after [true] [LCall 0 (OWait (nap 7)); LRun 0; LEnter 0 false; LTick 2000000 0] in
  reach true [true] 0 0 s /\ Forall soon (hist s) /\ doing 0 (hist s) = Waits (nap 7) /\ 7 + 1000000 <= now s.
Proof.
  cbv zeta. split; [apply after_reach; [all_allowed|vm_compute; discriminate]|].
  split; [repeat constructor; vm_compute; congruence|]. split; [reflexivity|vm_compute; congruence].
Qed.

(** ** C116: a join ends when the thread has ended *)
Definition C116_ends (h_ok : nat -> nat -> list event -> Prop) : Prop := forall fallible boost n r s t k j, reach fallible boost n r s ->
  doing t (hist s) = Waits k -> k_obj k = Some j -> has_ended j (hist s) -> h_ok t j (hist s) -> ~ stuck s t.

(** If no other thread joins or detaches the same object. *)
Theorem win_join_ends_partial : C116_ends kept.
Proof.
  intros f boost n r s t k j Hr Hd Hk He Hkept Hst. destruct (@thread_exists _ _ _ _ _ _ _ Hr Hd) as [x Hx].
  destruct (@asleep _ _ _ _ _ _ _ Hr Hst Hd x Hx) as (_ & A & _). exact (A j Hk He Hkept).
Qed.
Print Assumptions win_join_ends_partial.
Theorem win_join_ends_soon : forall fallible boost n r s t k j, reach fallible boost n r s -> (fallible = false \/ Forall soon (hist s)) ->
  doing t (hist s) = Waits k -> k_obj k = Some j -> has_ended j (hist s) -> kept t j (hist s) -> ends_now fallible t s.
Proof. intros f boost n r s t k j Hr Hs Hd Hk He Hkept. eapply call_ends; eauto. right. left. eauto. Qed.
Print Assumptions win_join_ends_soon.

(** Two threads join the same object: the handle that the second one waits for is looked up after the first has made the object empty; it waits for ever. *)
Theorem win_join_ends_refuted : ~ C116_ends (fun _ _ _ => True).
Proof.
  intros H. pose (s := after [true; true; true]
    [LCall 0 (OWait (join_ 2)); LRun 0; LRun 0; LCall 2 OExit;
     LCall 1 (OWait (join_ 2)); LRun 1; LRun 1; LRun 1; LEnter 1 true; LRun 1; LRun 1; LRun 0; LEnter 0 true]).
  assert (Hr : reach false [true; true; true] 0 0 s) by (apply after_reach; [all_allowed|vm_compute; discriminate]).
  refine (H false [true; true; true] 0 0 s 0%nat (join_ 2) 2%nat Hr _ _ _ I _); [reflexivity|reflexivity| |].
  - vm_compute. auto.
  - split; [|split]; vm_compute; reflexivity.
Qed.
Print Assumptions win_join_ends_refuted.

Example join_case : let s := after [true; true] [LCall 0 (OWait (join_ 1)); LRun 0; LRun 0; LRun 0; LEnter 0 true; LCall 1 OExit] in
  reach false [true; true] 0 0 s /\ doing 0 (hist s) = Waits (join_ 1) /\ has_ended 1 (hist s) /\ kept 0 1 (hist s).
Proof.
  cbv zeta. split; [apply after_reach; [all_allowed|vm_compute; discriminate]|]. split; [reflexivity|]. split; [vm_compute; auto|].
  intros u Hu. vm_compute in Hu. destruct Hu as [Hu|[Hu|[]]]; discriminate.
Qed.
