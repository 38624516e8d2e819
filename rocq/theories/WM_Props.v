(** * C73 - C76: mutexes on Windows

    Model: WM_Model.v; specification: WM_Spec.v. *)
From Verif Require Import MonWake WM_Model WM_Spec WM_Proofs.
Set Implicit Arguments.
Definition wm_reachable (threads : nat) (c : wmconf) : Prop := reachable wmprog threads wm0 false c.
Definition wr_reachable (W depth threads : nat) (c : wrconf) : Prop := reachable (wrprog W depth) threads wr0 0 c.

(** ** C73: mutual exclusion; try_lock fails only if a thread owns the mutex *)
Theorem C73_exclusive : forall threads c t t', wm_reachable threads c -> wm_owns c t -> wm_owns c t' -> t = t'.
Proof. intros threads c t t'. exact (@exclusive threads c t t'). Qed.
Print Assumptions C73_exclusive.

Theorem C73_try_lock_exact : forall threads c t ps e c1 c2 r, wm_reachable threads c ->
  step wmprog c (LCall bool t OTry) = Some c1 -> step wmprog c1 (LRun wop t ps e) = Some c2 ->
  hist c2 = EDone t OTry r :: hist c1 -> (r = true <-> forall t', ~ wm_owns c t').
Proof. intros threads c t ps e c1 c2 r. exact (@try_exact threads c t ps e c1 c2 r). Qed.
Print Assumptions C73_try_lock_exact.

(** ** C74: nobody is left waiting for a free mutex *)

(** When no thread can take a step any more, a thread blocked in lock or in a timed lock waits for another thread that owns the mutex.
    Timed locks that give up, at any moment, take no wake-up with them. *)
Theorem C74_no_lost_wakeup : forall threads c t op, wm_reachable threads c -> quiescent c -> wm_blocked c t op ->
  exists t', t' <> t /\ wm_owns c t'.
Proof. intros threads c t op. exact (@no_lost_wakeup threads c t op). Qed.
Print Assumptions C74_no_lost_wakeup.

(** The mutex does not keep track of threads that have left: at rest it counts exactly the threads that wait. *)
Theorem C74_waiters_exact : forall threads c, wm_reachable threads c -> quiescent c ->
  nw (wd (sh c)) = length (filter (fun x => match x with Asleep _ _ _ _ => true | _ => false end) (thr c)).
Proof.
  intros threads c Hr Hq. rewrite (count_exact Hr Hq). generalize (thr c). intros l. induction l as [|x l IH]; auto. cbn. rewrite IH. destruct x; reflexivity.
Qed.
Print Assumptions C74_waiters_exact.

(** ** C75: destroying an unlocked mutex *)

(** Thread [t] has given the mutex away in unlock, but will still use it. *)
Definition in_unlock (c : wmconf) (t : nat) : Prop := exists l k, nth_error (thr c) t = Some (Ready unit l OUnlock k) /\ k <> KB OUnlock.
Definition in_lock (c : wmconf) (t : nat) : Prop :=
  exists l op, (op = OLock \/ op = OTimed) /\ ((exists k, nth_error (thr c) t = Some (Ready unit l op k)) \/ (exists cv k, nth_error (thr c) t = Some (Asleep l op cv k))).
(** The intended statement: once no thread owns the mutex and every other call has returned, the mutex can be destroyed. *)
Definition C75_destroy : Prop := forall threads c t, wm_reachable threads c -> (forall t', ~ wm_owns c t') ->
  (forall t' x, t' <> t -> nth_error (thr c) t' = Some x -> exists l, x = Idle wkk wop unit l) -> (exists t' , t' <> t /\ hd_error (hist c) = Some (EDone t' OUnlock true)) -> ~ in_unlock c t.

Definition cl_ (t : nat) (op : wop) : label wop bool := LCall bool t op.
Definition r_ (t : nat) : label wop bool := LRun wop t [] false.
Ltac witness P n ls := let c := fresh "c" in let E := fresh "E" in
  destruct (run P (init wkk wop bool unit n wm0 false) ls) as [c|] eqn:E; [|vm_compute in E; discriminate]; exists c; split; [exists ls; exact E|]; vm_compute in E; injection E as <-.

(** It is false: thread 0 releases the mutex and is suspended before it sets the event flag; thread 2 locks and unlocks, which wakes thread 1, which locks and unlocks.
    The mutex is free, nobody waits, thread 1, the last owner, has returned from unlock, and thread 0 is still going to access it. *)
Lemma C75_witness : exists c, wm_reachable 3 c /\ (forall t', ~ wm_owns c t') /\ in_unlock c 0 /\ hd_error (hist c) = Some (EDone 1 OUnlock true) /\
  (forall t' x, t' <> 0 -> nth_error (thr c) t' = Some x -> exists l, x = Idle wkk wop unit l).
Proof.
  witness wmprog 3 ([cl_ 0 OLock; r_ 0; cl_ 1 OLock; r_ 1; r_ 1; r_ 1; r_ 1; cl_ 0 OUnlock; r_ 0; cl_ 2 OLock; r_ 2; cl_ 2 OUnlock; r_ 2; r_ 2; r_ 2; r_ 1; r_ 1; cl_ 1 OUnlock; r_ 1]).
  split; [intros [|[|[|t']]] [H|[l H]]; cbn in H; try discriminate; destruct t'; discriminate|]. split; [exists true, KEvt; split; [reflexivity|discriminate]|].
  split; [reflexivity|]. intros [|[|[|t']]] x Hn Hx; cbn in Hx; try congruence; try (injection Hx as <-; eauto). destruct t'; discriminate.
Qed.
Theorem C75_destroy_refuted : ~ C75_destroy.
Proof. intros H. destruct C75_witness as (c & Hr & Ho & Hu & Hh & Hi). refine (H 3 c 0 Hr Ho Hi _ Hu). exists 1. split; [discriminate|exact Hh]. Qed.
Print Assumptions C75_destroy_refuted.

(** It holds if no thread is inside lock or a timed lock when the owner releases the mutex: then unlock is over with the release. *)
Theorem C75_destroy_partial : forall threads c t l ps e c', wm_reachable threads c -> (forall t', ~ in_lock c t') ->
  nth_error (thr c) t = Some (Ready unit l OUnlock (KB OUnlock)) -> step wmprog c (LRun wop t ps e) = Some c' -> ~ in_unlock c' t.
Proof. intros threads c t l ps e c' Hr Hn. exact (@unlock_done threads c t l ps e c' Hr Hn). Qed.
Print Assumptions C75_destroy_partial.

(** ** C76: recursive_mutex and recursive_timed_mutex *)
Theorem C76_exclusive : forall W depth threads c t t' d d', 2 <= W -> depth <= W -> wr_reachable W depth threads c ->
  wr_depth c t d -> wr_depth c t' d' -> 0 < d -> 0 < d' -> t = t'.
Proof. intros W depth threads c t t' d d' HW HD. exact (@r_exclusive W depth HW HD threads c t t' d d'). Qed.
Print Assumptions C76_exclusive.

(** The owner's further calls never wait and never fail: the call in progress succeeds after at most two steps of its thread, and the depth goes up by one. *)
Theorem C76_owner_never_waits : forall W depth threads c t l op k, 2 <= W -> depth <= W -> wr_reachable W depth threads c ->
  nth_error (thr c) t = Some (Ready unit l op k) -> 0 < l -> op <> RUnlock ->
  forall ps e c', step (wrprog W depth) c (LRun wrop t ps e) = Some c' ->
  (k <> RInc /\ nth_error (thr c') t = Some (Ready unit l op RInc)) \/ (nth_error (thr c') t = Some (Idle wrk wrop unit (S l)) /\ hist c' = EDone t op true :: hist c).
Proof. intros W depth threads c t l op k HW HD. exact (@r_owner_call W depth HW HD threads c t l op k). Qed.
Print Assumptions C76_owner_never_waits.

Theorem C76_owner_never_asleep : forall W depth threads c t l op cv k, 2 <= W -> depth <= W -> wr_reachable W depth threads c ->
  nth_error (thr c) t = Some (Asleep l op cv k) -> l = 0.
Proof. intros W depth threads c t l op cv k HW HD. exact (@r_owner_not_asleep W depth HW HD threads c t l op cv k). Qed.
Print Assumptions C76_owner_never_asleep.

Theorem C76_no_lost_wakeup : forall W depth threads c t op, 2 <= W -> depth <= W -> wr_reachable W depth threads c -> quiescent c ->
  wr_blocked c t op -> wr_depth c t 0 /\ exists t' d, wr_depth c t' d /\ 0 < d.
Proof. intros W depth threads c t op HW HD. exact (@r_no_lost_wakeup W depth HW HD threads c t op). Qed.
Print Assumptions C76_no_lost_wakeup.

(** At rest the underlying mutex is free exactly if every thread has unlocked as often as it locked. *)
Theorem C76_free_exactly_when_balanced : forall W depth threads c, 2 <= W -> depth <= W -> wr_reachable W depth threads c -> quiescent c ->
  (held (sh c) = false <-> forall t d, wr_depth c t d -> d = 0).
Proof. intros W depth threads c HW HD. exact (@r_free W depth HW HD threads c). Qed.
Print Assumptions C76_free_exactly_when_balanced.

(** ** The hypotheses are met *)

(** thread 0 owns the mutex, thread 1 is blocked in lock; thread 2 has timed out; the event was signalled for it *)
Example C74_example : exists c, wm_reachable 4 c /\ quiescent c /\ wm_owns c 3 /\ wm_blocked c 1 OLock /\ In (EDone 2 OTimed false) (hist c) /\ nw (wd (sh c)) = 1.
Proof.
  witness wmprog 4 ([cl_ 0 OLock; r_ 0; cl_ 2 OTimed; r_ 2; r_ 2; r_ 2; r_ 2; r_ 2; LTimeout wop bool 2; cl_ 0 OUnlock; r_ 0; r_ 0; cl_ 3 OTry; r_ 3; LRun wop 2 [] true; r_ 2; r_ 0;
    cl_ 1 OLock; r_ 1; r_ 1; r_ 1; r_ 1; r_ 1; r_ 1; r_ 1]).
  split; [reflexivity|]. split; [left; reflexivity|]. split; [do 3 eexists; reflexivity|]. split; [cbn; tauto|reflexivity].
Qed.
Example C73_example : exists c c1 c2, wm_reachable 2 c /\ wm_owns c 0 /\ step wmprog c (cl_ 1 OTry) = Some c1 /\ step wmprog c1 (r_ 1) = Some c2 /\ hist c2 = EDone 1 OTry false :: hist c1.
Proof.
  destruct (run wmprog (init wkk wop bool unit 2 wm0 false) [cl_ 0 OLock; r_ 0]) as [c|] eqn:E; [|vm_compute in E; discriminate]. exists c. do 2 eexists.
  assert (wm_reachable 2 c) by (exists [cl_ 0 OLock; r_ 0]; exact E). vm_compute in E. injection E as <-.
  split; auto. split; [left; reflexivity|]. split; [reflexivity|]. split; reflexivity.
Qed.
Definition rcl_ (t : nat) (op : wrop) : label wrop bool := LCall bool t op.
Definition rr_ (t : nat) : label wrop bool := LRun wrop t [] false.
Example C76_example : exists c, wr_reachable 256 256 2 c /\ quiescent c /\ wr_depth c 0 2 /\ wr_blocked c 1 RLock /\ held (sh c) = true.
Proof.
  destruct (run (wrprog 256 256) (init wrk wrop bool unit 2 wr0 0) [rcl_ 0 RLock; rr_ 0; rr_ 0; rr_ 0; rr_ 0; rcl_ 0 RTimed; rr_ 0; rcl_ 1 RLock; rr_ 0; rr_ 1; rr_ 1]) as [c|] eqn:E; [|vm_compute in E; discriminate]. exists c.
  split; [eexists; exact E|]. vm_compute in E. injection E as <-. split; [reflexivity|]. split; [eexists; split; reflexivity|]. split; [do 3 eexists; reflexivity|reflexivity].
Qed.
