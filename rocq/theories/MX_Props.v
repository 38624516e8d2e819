(** * Properties C30 - C32 (timed_mutex, recursive_mutex, recursive_timed_mutex)

    Model: MX_Model.v; specification: MX_Spec.v.  [allow] is the set of operations the program uses. *)

From Verif Require Import MonWake MX_Model MX_Spec MX_Proofs.

Definition tm_reachable (allow : top -> bool) (threads : nat) (c : tmconf) : Prop := reachable (tmprog allow) threads false false c.
Definition rm_reachable (W : nat) (allow : rop -> bool) (depth threads : nat) (c : rmconf) : Prop :=
  reachable (rmprog W allow depth) threads rm_new 0 c.

(** ** C30 *)

Theorem C30_exclusive : forall threads c t t', tm_reachable t_ordinary threads c -> tm_owns c t -> tm_owns c t' -> t = t'.
Proof. intros threads c t t'. exact (tm_exclusive t_ordinary (fun _ H => H) threads c t t'). Qed.
Print Assumptions C30_exclusive.

Theorem C30_no_lost_wakeup : forall threads c t op, tm_reachable t_ordinary threads c -> quiescent c -> tm_blocked c t op ->
  exists t', t' <> t /\ tm_owns c t'.
Proof. intros threads c t op. exact (tm_no_lost_wakeup t_ordinary (fun _ H => H) threads c t op). Qed.
Print Assumptions C30_no_lost_wakeup.

Theorem C30_comes_to_rest : forall threads c, tm_reachable t_ordinary threads c ->
  exists ls c', run (tmprog t_ordinary) c ls = Some c' /\ quiescent c' /\
    Forall (fun lb => match lb with LRun _ _ _ _ => True | _ => False end) ls.
Proof. intros threads c. exact (tm_comes_to_rest t_ordinary (fun _ H => H) threads c). Qed.
Print Assumptions C30_comes_to_rest.

(** try_lock succeeds exactly when nobody owns the mutex. *)
Theorem C30_try_lock_exact : forall threads c t ps e c1 c2 r, tm_reachable t_ordinary threads c ->
  step (tmprog t_ordinary) c (LCall bool t TTry) = Some c1 -> step (tmprog t_ordinary) c1 (LRun top t ps e) = Some c2 ->
  hist c2 = EDone t TTry r :: hist c1 -> (r = true <-> forall t', ~ tm_owns c t').
Proof. intros threads c t ps e c1 c2 r. exact (tm_try_exact t_ordinary (fun _ H => H) threads c t ps e c1 c2 r). Qed.
Print Assumptions C30_try_lock_exact.

(** One owner, one thread blocked in lock and one that polls in a timed lock. *)
Definition ex30 : list (label top bool) :=
  [LCall bool 0 TTry; LRun top 0 [] true; LCall bool 1 TLock; LRun top 1 [] true; LCall bool 2 (TRel DFinite); LRun top 2 [] true;
   LTimeout top bool 2; LRun top 2 [] false; LRun top 2 [] false].
Example C30_example : exists c, tm_reachable t_ordinary 3 c /\ quiescent c /\ tm_owns c 0 /\ tm_blocked c 1 TLock /\ tm_blocked c 2 (TRel DFinite).
Proof.
  eexists. split; [exists ex30; vm_compute; reflexivity|]. split; [repeat constructor|].
  split; [eexists; split; reflexivity|]. split; do 3 eexists; reflexivity.
Qed.

(** ** C31 *)

(** At most one thread has locked the mutex more often than it unlocked it, for nesting up to the range of the counter. *)
Theorem C31_exclusive : forall W depth threads c t t' d d', 1 <= W -> depth <= W -> rm_reachable W r_ordinary depth threads c ->
  rm_depth c t d -> rm_depth c t' d' -> 0 < d -> 0 < d' -> t = t'.
Proof. intros W depth threads c t t' d d' HW HD. exact (rm_exclusive W r_ordinary (fun _ H => H) depth HD HW threads c t t' d d'). Qed.
Print Assumptions C31_exclusive.

(** Every further lock, try_lock or timed lock of the owner succeeds in its first step. *)
Theorem C31_owner_never_waits : forall W depth threads c t op ps e c1 c2 d, 1 <= W -> depth <= W -> rm_reachable W r_ordinary depth threads c ->
  rm_depth c t d -> 0 < d -> op <> RUnlock ->
  step (rmprog W r_ordinary depth) c (LCall bool t op) = Some c1 -> step (rmprog W r_ordinary depth) c1 (LRun rop t ps e) = Some c2 ->
  hist c2 = EDone t op true :: hist c1 /\ rm_depth c2 t (S d) /\ r_locked (sh c2) = true.
Proof. intros W depth threads c t op ps e c1 c2 d HW HD. exact (rm_owner_gets_it W r_ordinary (fun _ H => H) depth HD HW threads c t op ps e c1 c2 d). Qed.
Print Assumptions C31_owner_never_waits.

(** The mutex is free exactly when every thread has unlocked as often as it locked; try_lock observes this. *)
Theorem C31_free_exactly_when_balanced : forall W depth threads c, 1 <= W -> depth <= W -> rm_reachable W r_ordinary depth threads c ->
  (r_locked (sh c) = false <-> forall t d, rm_depth c t d -> d = 0).
Proof. intros W depth threads c HW HD. exact (rm_free W r_ordinary (fun _ H => H) depth HD HW threads c). Qed.
Print Assumptions C31_free_exactly_when_balanced.

Theorem C31_try_lock_exact : forall W depth threads c t ps e c1 c2 r, 1 <= W -> depth <= W -> rm_reachable W r_ordinary depth threads c ->
  step (rmprog W r_ordinary depth) c (LCall bool t RTry) = Some c1 -> step (rmprog W r_ordinary depth) c1 (LRun rop t ps e) = Some c2 ->
  hist c2 = EDone t RTry r :: hist c1 -> (r = true <-> forall t' d, t' <> t -> rm_depth c t' d -> d = 0).
Proof. intros W depth threads c t ps e c1 c2 r HW HD. exact (rm_try_exact W r_ordinary (fun _ H => H) depth HD HW threads c t ps e c1 c2 r). Qed.
Print Assumptions C31_try_lock_exact.

Theorem C31_no_lost_wakeup : forall W depth threads c t op, 1 <= W -> depth <= W -> rm_reachable W r_ordinary depth threads c ->
  quiescent c -> rm_blocked c t op -> rm_depth c t 0 /\ exists t' d, rm_depth c t' d /\ 0 < d.
Proof. intros W depth threads c t op HW HD. exact (rm_no_lost_wakeup W r_ordinary (fun _ H => H) depth HD HW threads c t op). Qed.
Print Assumptions C31_no_lost_wakeup.

Theorem C31_comes_to_rest : forall W depth threads c, 1 <= W -> depth <= W -> rm_reachable W r_ordinary depth threads c ->
  exists ls c', run (rmprog W r_ordinary depth) c ls = Some c' /\ quiescent c' /\
    Forall (fun lb => match lb with LRun _ _ _ _ => True | _ => False end) ls.
Proof. intros W depth threads c HW HD. exact (rm_comes_to_rest W r_ordinary (fun _ H => H) depth HD HW threads c). Qed.
Print Assumptions C31_comes_to_rest.

(** The bound is exact: nested one deeper than the range of [unsigned], the mutex is given away after one unlock. *)
Theorem C31_depth_refuted : forall W, 1 <= W -> exists c d, rm_reachable W (fun _ => true) (S W) 2 c /\
  rm_depth c 0 d /\ 0 < d /\ rm_depth c 1 1.
Proof. intros W HW. exact (too_deep W HW). Qed.
Print Assumptions C31_depth_refuted.

Definition ex31 : list (label rop bool) :=
  [LCall bool 0 RLock; LRun rop 0 [] true; LCall bool 1 RLock; LRun rop 1 [] true; LCall bool 0 RTimed; LRun rop 0 [] true].
Example C31_example : exists c, rm_reachable 256 r_ordinary 256 2 c /\ quiescent c /\ rm_depth c 0 2 /\ rm_blocked c 1 RLock.
Proof.
  eexists. split; [exists ex31; vm_compute; reflexivity|]. split; [repeat constructor|].
  split; [eexists; split; reflexivity|]. do 3 eexists; reflexivity.
Qed.
(** Two unlocks later the other thread has it. *)
Example C31_example_release : exists c, rm_reachable 256 r_ordinary 256 2 c /\ rm_depth c 0 0 /\ rm_depth c 1 1.
Proof.
  eexists. split; [exists (ex31 ++ [LCall bool 0 RUnlock; LRun rop 0 [1] true; LRun rop 1 [] true; LCall bool 0 RUnlock; LRun rop 0 [1] true; LRun rop 1 [] true]); vm_compute; reflexivity|].
  split; eexists; split; reflexivity.
Qed.

(** ** C32 *)

(** The intended statement: a successful timed_lock(relative) gives ownership, which excludes other owners. *)
Definition C32_timed_mutex : Prop := forall threads c t t' d, tm_reachable (fun _ => true) threads c ->
  In (EDone t (TRel d) true) (hist c) -> tm_owns c t -> tm_owns c t' -> t = t'.
Definition C32_recursive_timed_mutex : Prop := forall W depth threads c t t' d dt dt', 1 <= W -> depth <= W ->
  rm_reachable W (fun _ => true) depth threads c -> In (EDone t (RRel d) true) (hist c) ->
  rm_depth c t dt -> rm_depth c t' dt' -> 0 < dt -> 0 < dt' -> t = t'.

(** timed_lock(neg_infin) and timed_lock(not_a_date_time) return true without locking. *)
Definition ex32 : list (label top bool) :=
  [LCall bool 0 TLock; LRun top 0 [] true; LCall bool 1 (TRel DNegInf); LRun top 1 [] true].
Theorem C32_timed_mutex_refuted : ~ C32_timed_mutex.
Proof.
  intros H. assert (0 = 1); [|discriminate]. symmetry.
  eapply (H 2 _ 1 0 DNegInf); [exists ex32; vm_compute; reflexivity|simpl; auto| |]; eexists; split; reflexivity.
Qed.
Print Assumptions C32_timed_mutex_refuted.

Definition ex32r : list (label rop bool) :=
  [LCall bool 0 RLock; LRun rop 0 [] true; LCall bool 1 (RRel DNotADateTime); LRun rop 1 [] true].
Theorem C32_recursive_timed_mutex_refuted : ~ C32_recursive_timed_mutex.
Proof.
  intros H. assert (0 = 1); [|discriminate]. symmetry.
  eapply (H 256 1 2 _ 1 0 DNotADateTime 1 1); [lia|lia|exists ex32r; vm_compute; reflexivity|simpl; auto| | |lia|lia]; eexists; split; reflexivity.
Qed.
Print Assumptions C32_recursive_timed_mutex_refuted.

(** It holds when all relative durations of the program are ordinary values or pos_infin. *)
Theorem C32_timed_mutex_partial : forall threads c t t' d, tm_reachable t_ordinary threads c ->
  In (EDone t (TRel d) true) (hist c) -> tm_owns c t -> tm_owns c t' -> t = t'.
Proof. intros threads c t t' d Hr _. exact (C30_exclusive threads c t t' Hr). Qed.
Print Assumptions C32_timed_mutex_partial.

Theorem C32_recursive_timed_mutex_partial : forall W depth threads c t t' d dt dt', 1 <= W -> depth <= W ->
  rm_reachable W r_ordinary depth threads c -> In (EDone t (RRel d) true) (hist c) ->
  rm_depth c t dt -> rm_depth c t' dt' -> 0 < dt -> 0 < dt' -> t = t'.
Proof. intros W depth threads c t t' d dt dt' HW HD Hr _. exact (C31_exclusive W depth threads c t t' dt dt' HW HD Hr). Qed.
Print Assumptions C32_recursive_timed_mutex_partial.

(** ... and these are the only values that go wrong: every other call that returns true did acquire the mutex. *)
Theorem C32_other_durations_acquire_partial : forall t past d s s' ns, ordinary d = true ->
  tfrag t past (TB (TRel d)) s = (s', ns, ORet tk unit true) -> s = false /\ s' = true.
Proof. intros t past [] [] s' ns Ho H; inversion H; auto; discriminate. Qed.
Print Assumptions C32_other_durations_acquire_partial.

Example C32_example : exists c, tm_reachable t_ordinary 2 c /\ In (EDone 1 (TRel DPosInf) true) (hist c) /\ tm_owns c 1.
Proof.
  eexists. split; [exists [LCall bool 1 (TRel DPosInf); LRun top 1 [] true]; vm_compute; reflexivity|].
  split; [simpl; auto|]. eexists; split; reflexivity.
Qed.
