(** * Properties C01-C07: boost::concurrent::sync_bounded_queue

    The model is BQ_Model.v (executed by the monitor of Monitor.v), the
    specification is BQ_Spec.v.  In all theorems [n] is the number of threads,
    [max] the constructor argument, [d] a default-constructed element, [b] says
    whether blocked threads may be interrupted, and [reachable] ranges over all
    schedules, spurious wake-ups included. *)

From Verif Require Import Monitor MonitorLemmas Settle BQ_Model BQ_Spec BQ_Proofs BQ_Live BQ_More.

(** The configurations of the queue. *)
Notation qconf V := (cfg (bq V) (bk V) (bop V) (bres V) bcv unit).
(** All configurations a queue of capacity [max] used by [n] threads can get into. *)
Definition q_reachable {V} (b : bool) (n : nat) (d : V) (max : nat) (c : qconf V) : Prop :=
  reachable (bprog V b) n (bq_new d max) tt c.
(** The step [c -> c'] is the moment at which an operation [op] of thread [t] takes effect and returns [r]. *)
Definition q_completes {V} (b : bool) (c c' : qconf V) (t : nat) (op : bop V) (r : bres V) : Prop :=
  exists lb, step (bprog V b) c lb = Some c' /\ hist c' = EDone t op r :: hist c.

(** A concrete run used below: two producers, one consumer, capacity 2. *)
Definition call1 (t : nat) (op : bop nat) : list (label (bop nat) bool) :=
  [LCall bool t op; LRun _ t [] false].

(** ** C01 *)

Theorem C01_fifo : forall (V : Type) (d : V) (b : bool) (n max : nat) (c : qconf V),
  1 <= max -> q_reachable b n d max c ->
  accepted (hist c) = delivered (hist c) ++ stored (sh c).
Proof.
  intros V d b n max c Hm Hr. destruct (safe_reachable Hm Hr) as (_ & Hh & _).
  exact (fifo_history_ad Hh).
Qed.
Print Assumptions C01_fifo.

(** Stronger: the whole history is a history of the abstract bounded FIFO queue. *)
Theorem C01_linearizable : forall (V : Type) (d : V) (b : bool) (n max : nat) (c : qconf V),
  1 <= max -> q_reachable b n d max c ->
  fifo_history max (hist c) (MkA (stored (sh c)) (q_closed (sh c))).
Proof.
  intros V d b n max c Hm Hr. destruct (safe_reachable Hm Hr) as (_ & Hh & _). exact Hh.
Qed.
Print Assumptions C01_linearizable.

(** Non-vacuity: a reachable configuration where values went in, one came out and one is stored. *)
Example C01_case : exists c, q_reachable false 2 0 2 c /\
  accepted (hist c) = [7; 8] /\ delivered (hist c) = [7] /\ stored (sh c) = [8].
Proof.
  eexists. split.
  - exists (call1 0 (BPush 7) ++ call1 0 (BTryPushBack 8) ++ call1 1 BPull). vm_compute. reflexivity.
  - vm_compute. auto.
Qed.

(** ** C02 *)

Theorem C02_capacity : forall (V : Type) (d : V) (b : bool) (n max : nat) (c : qconf V),
  1 <= max -> q_reachable b n d max c ->
  length (stored (sh c)) <= max /\ ~ In (Crashed (bk V) (bop V) bcv unit) (thr c).
Proof.
  intros V d b n max c Hm Hr. destruct (safe_reachable Hm Hr) as (Hwf & _). split.
  - exact (stored_bound Hwf).
  - exact (bq_no_crash Hm Hr).
Qed.
Print Assumptions C02_capacity.

Theorem C02_try_push_back_exact :
  forall (V : Type) (d : V) (b : bool) (n max : nat) (c c' : qconf V) t x r,
  1 <= max -> q_reachable b n d max c -> q_completes b c c' t (BTryPushBack x) r ->
  (q_closed (sh c) = true /\ r = BSt st_closed /\ stored (sh c') = stored (sh c)) \/
  (q_closed (sh c) = false /\ length (stored (sh c)) = max /\ r = BSt st_full /\
     stored (sh c') = stored (sh c)) \/
  (q_closed (sh c) = false /\ length (stored (sh c)) < max /\ r = BSt st_success /\
     stored (sh c') = stored (sh c) ++ [x]).
Proof.
  intros V d b n max c c' t x r Hm Hr (lb & Hs & Hh).
  pose proof (done_step lb Hm Hr Hs Hh) as H. inversion H; subst; simpl in *;
    repeat match goal with
      | H : _ \/ _ |- _ => destruct H
      | H : exists _, _ |- _ => destruct H
      | H : _ = _ :> bop _ |- _ => discriminate
      | H : (_, _) = (_, _) |- _ => inversion H; subst; clear H
    end; auto 8.
Qed.
Print Assumptions C02_try_push_back_exact.

Theorem C02_try_pull_front_exact :
  forall (V : Type) (d : V) (b : bool) (n max : nat) (c c' : qconf V) t r,
  1 <= max -> q_reachable b n d max c -> q_completes b c c' t BTryPullFront r ->
  match stored (sh c) with
  | v :: vs => r = BGot v /\ stored (sh c') = vs
  | [] => r = (if q_closed (sh c) then BSt st_closed else BSt st_empty) /\ stored (sh c') = []
  end.
Proof.
  intros V d b n max c c' t r Hm Hr (lb & Hs & Hh).
  pose proof (done_step lb Hm Hr Hs Hh) as H.
  assert (E : forall q, stored (sh c) = items q -> q_closed (sh c) = aclosed q ->
              fifo_step max q BTryPullFront r (abs (sh c')) ->
              match items q with
              | v :: vs => r = BGot v /\ stored (sh c') = vs
              | [] => r = (if aclosed q then BSt st_closed else BSt st_empty) /\ stored (sh c') = []
              end).
  { intros q _ _ Hf. remember (abs (sh c')) as q' eqn:Hq'.
    assert (stored (sh c') = items q') as -> by (subst; reflexivity). clear Hq'.
    inversion Hf; subst; simpl in *;
    repeat match goal with
      | H : _ \/ _ |- _ => destruct H
      | H : exists _, _ |- _ => destruct H
      | H : _ = _ :> bop _ |- _ => discriminate
      | H : (_, _) = (_, _) |- _ => inversion H; subst; clear H
    end;
    repeat match goal with
      | H : items ?s = _ |- context [items ?s] => rewrite H
      | H : aclosed ?s = _ |- context [aclosed ?s] => rewrite H
    end; auto. }
  exact (E (abs (sh c)) eq_refl eq_refl H).
Qed.
Print Assumptions C02_try_pull_front_exact.

(** Observers are exact too. *)
Theorem C02_observers_exact :
  forall (V : Type) (d : V) (b : bool) (n max : nat) (c c' : qconf V) t r,
  1 <= max -> q_reachable b n d max c ->
  (q_completes b c c' t BEmpty r -> exists e, r = BBool e /\ (e = true <-> stored (sh c) = [])) /\
  (q_completes b c c' t BFull r -> exists e, r = BBool e /\ (e = true <-> length (stored (sh c)) = max)) /\
  (q_completes b c c' t BClosed r -> r = BBool (q_closed (sh c))) /\
  (q_completes b c c' t BCapacity r -> r = BNat max).
Proof.
  intros V d b n max c c' t r Hm Hr; repeat split; intros (lb & Hs & Hh);
  pose proof (done_step lb Hm Hr Hs Hh) as H; inversion H; subst; simpl in *;
    repeat match goal with
      | H : _ \/ _ |- _ => destruct H
      | H : exists _, _ |- _ => destruct H
      | H : _ = _ :> bop _ |- _ => discriminate
      | H : (_, _) = (_, _) |- _ => inversion H; subst; clear H
    end; eauto.
Qed.
Print Assumptions C02_observers_exact.

(** Non-vacuity: the queue really gets full (and reports it) after its indices wrapped. *)
Example C02_case : exists c c', q_reachable false 1 0 2 c /\
  q_completes false c c' 0 (BTryPushBack 9) (BSt st_full) /\ stored (sh c) = [3; 4] /\
  q_in (sh c) < q_out (sh c).
Proof.
  assert (H : exists c1, run (bprog nat false) (init _ _ _ _ 1 (bq_new 0 2) tt)
     (call1 0 (BPush 1) ++ call1 0 (BPush 2) ++ call1 0 BPull ++ call1 0 BPull ++
      call1 0 (BPush 3) ++ call1 0 (BPush 4) ++ [LCall bool 0 (BTryPushBack 9)]) = Some c1 /\
      exists c2, step (bprog nat false) c1 (LRun _ 0 [] false) = Some c2 /\
      hist c2 = EDone 0 (BTryPushBack 9) (BSt st_full) :: hist c1 /\
      stored (sh c1) = [3; 4] /\ q_in (sh c1) < q_out (sh c1)).
  { eexists. split; [vm_compute; reflexivity|]. eexists. split; [vm_compute; reflexivity|].
    vm_compute. auto. }
  destruct H as (c1 & H1 & c2 & H2 & H3 & H4 & H5).
  exists c1, c2. repeat split; auto; [eexists; eauto|exists (LRun _ 0 [] false); auto].
Qed.

(** ** C03: size() is wrong after the ring has wrapped *)

(** The intended claim is refuted: size() returns 0 while one element is stored. *)
Theorem C03_size_refuted : exists c c' k, q_reachable false 1 0 2 c /\
  q_completes false c c' 0 BSize (BNat k) /\ k <> length (stored (sh c)).
Proof.
  assert (H : exists c1, run (bprog nat false) (init _ _ _ _ 1 (bq_new 0 2) tt)
     (call1 0 (BPush 1) ++ call1 0 (BPush 2) ++ call1 0 BPull ++ call1 0 BPull ++
      call1 0 (BPush 3) ++ [LCall bool 0 BSize]) = Some c1 /\
      exists c2, step (bprog nat false) c1 (LRun _ 0 [] false) = Some c2 /\
      hist c2 = EDone 0 BSize (BNat 0) :: hist c1 /\ length (stored (sh c1)) = 1).
  { eexists. split; [vm_compute; reflexivity|]. eexists. split; [vm_compute; reflexivity|].
    vm_compute. auto. }
  destruct H as (c1 & H1 & c2 & H2 & H3 & H4).
  exists c1, c2, 0. repeat split; [eexists; eauto|exists (LRun _ 0 [] false); auto|congruence].
Qed.
Print Assumptions C03_size_refuted.

(** What holds: size() is exact, except when, of the elements accepted and delivered
    so far counted modulo [max + 1], fewer were accepted than delivered and the
    queue is not full: then it is one too small. *)
Theorem C03_size_partial :
  forall (V : Type) (d : V) (b : bool) (n max : nat) (c : qconf V) e t ps l,
  1 <= max -> q_reachable b n d max c ->
  nth_error (thr c) t = Some (Ready bcv l (BSize : bop V) (KGo (BSize : bop V))) ->
  exists c' k, step (bprog V b) c (LRun _ t ps e) = Some c' /\
    hist c' = EDone t BSize (BNat k) :: hist c /\ stored (sh c') = stored (sh c) /\
    k = if (length (accepted (hist c)) mod (max + 1) <? length (delivered (hist c)) mod (max + 1))
           && negb (length (stored (sh c)) =? max)
        then length (stored (sh c)) - 1 else length (stored (sh c)).
Proof.
  intros V d b n max c e t ps l Hm Hr Ht.
  destruct (safe_reachable Hm Hr) as (Hwf & _). destruct (indices Hm Hr) as [Hi Ho].
  eexists. exists (b_size (sh c)). split; [|split; [|split]].
  - unfold step. rewrite Ht. simpl. reflexivity.
  - reflexivity.
  - reflexivity.
  - rewrite (size_value Hwf), <- Hi, <- Ho. f_equal. f_equal.
    unfold b_full. pose proof (full_iff Hwf) as Hf.
    destruct (Nat.eqb_spec (inc (sh c) (q_in (sh c))) (q_out (sh c)));
      destruct (Nat.eqb_spec (length (stored (sh c))) max); tauto.
Qed.
Print Assumptions C03_size_partial.

(** ** C04 *)

(** No interruption: in every quiescent configuration (nobody can step without a
    new call or an un-notified wake-up) a blocked thread is blocked for a reason. *)
Theorem C04_no_lost_wakeup :
  forall (V : Type) (d : V) (n max : nat) (c : qconf V) t l op cv k,
  1 <= max -> q_reachable false n d max c -> quiescent c ->
  nth_error (thr c) t = Some (Asleep l op cv k) ->
  q_closed (sh c) = false /\
  (((op = BPull \/ op = BWaitPullFront) /\ stored (sh c) = []) \/
   ((exists x, op = BPush x \/ op = BWaitPushBack x) /\ length (stored (sh c)) = max)).
Proof.
  intros V d n max c t l op cv k Hm Hr Hq Ht.
  destruct (blocked_gen Hm Hr Hq Ht) as [Hc H]. destruct (never_interrupted Hm Hr) as [_ Hi].
  rewrite Hi in H. destruct (safe_reachable Hm Hr) as (Hwf & _). pose proof (stored_bound Hwf).
  split; auto. destruct op; try contradiction.
  - right; split; eauto. lia.
  - right; split; eauto. lia.
  - left; split; auto. apply length_zero_iff_nil. lia.
  - left; split; auto. apply length_zero_iff_nil. lia.
Qed.
Print Assumptions C04_no_lost_wakeup.

(** Quiescent configurations are where every execution ends up: the running
    threads cannot run for ever, and can always be scheduled to quiescence. *)
Theorem C04_comes_to_rest :
  forall (V : Type) (d : V) (b : bool) (n max : nat) (c : qconf V),
  1 <= max -> q_reachable b n d max c ->
  Acc (run_step (bprog V b)) c /\
  exists ls c', run (bprog V b) c ls = Some c' /\ quiescent c' /\
    Forall (fun lb => match lb with LRun _ _ _ _ => True | _ => False end) ls.
Proof.
  intros V d b n max c Hm Hr. split.
  - apply running_terminates. exact (bq_direct (V:=V) b).
  - apply (settles (P:=bprog V b) false (bq_direct (V:=V) b) (n:=n) (s0:=bq_new d max) (l0:=tt)); auto.
    intros c0 H0. exact (bq_no_crash Hm H0).
Qed.
Print Assumptions C04_comes_to_rest.

(** Non-vacuity: a reachable quiescent configuration with a blocked consumer, and
    one with a blocked producer. *)
Example C04_case :
  (exists c l cv k, q_reachable false 2 0 1 c /\ quiescent c /\
     nth_error (thr c) 0 = Some (Asleep l BPull cv k)) /\
  (exists c l cv k, q_reachable false 2 0 1 c /\ quiescent c /\
     nth_error (thr c) 1 = Some (Asleep l (BPush 6) cv k) /\ stored (sh c) = [5]).
Proof.
  split.
  - do 4 eexists. split; [exists (call1 0 BPull); vm_compute; reflexivity|].
    split; vm_compute; reflexivity.
  - do 4 eexists. split; [exists (call1 0 (BPush 5) ++ call1 1 (BPush 6)); vm_compute; reflexivity|].
    repeat split; vm_compute; reflexivity.
Qed.

(** ** C05 *)

Theorem C05_close_rejects_pushes :
  forall (V : Type) (d : V) (b : bool) (n max : nat) (c c' : qconf V) ls,
  1 <= max -> q_reachable b n d max c -> closed_in (hist c) ->
  run (bprog V b) c ls = Some c' -> accepted (hist c') = accepted (hist c).
Proof. intros V d b n max c c' ls Hm Hr. exact (closed_rejects ls Hm Hr). Qed.
Print Assumptions C05_close_rejects_pushes.

Theorem C05_close_releases_all :
  forall (V : Type) (d : V) (b : bool) (n max : nat) (c : qconf V),
  1 <= max -> q_reachable b n d max c -> closed_in (hist c) -> quiescent c ->
  Forall (fun x => exists l, x = Idle _ _ _ l) (thr c).
Proof.
  intros V d b n max c Hm Hr Hc Hq. apply Forall_forall. intros x Hin.
  apply In_nth_error in Hin as [t Ht].
  destruct (quiescent_settled Hq Ht) as [H|(l & op & cv & k & ->)]; auto.
  destruct (blocked_gen Hm Hr Hq Ht) as [Hcl _].
  apply (reachable_closed Hm Hr) in Hc. congruence.
Qed.
Print Assumptions C05_close_releases_all.

(** Stored elements are still delivered: every pull that completes on a closed
    queue hands over the oldest stored element as long as there is one (the
    exceptions are a busy mutex and an interrupted wait). *)
Theorem C05_close_still_delivers :
  forall (V : Type) (d : V) (b : bool) (n max : nat) (c c' : qconf V) t op r v vs,
  1 <= max -> q_reachable b n d max c -> closed_in (hist c) ->
  In op [BPull; BTryPull; BTryPullFront; BWaitPullFront] ->
  q_completes b c c' t op r -> stored (sh c) = v :: vs ->
  r = BThrowIntr \/ (r = BGot v /\ stored (sh c') = vs).
Proof.
  intros V d b n max c c' t op r v vs Hm Hr Hc Hop (lb & Hs & Hh) Hst.
  apply (reachable_closed Hm Hr) in Hc.
  pose proof (done_step lb Hm Hr Hs Hh) as H. inversion H; subst; simpl in *;
    repeat match goal with
      | H : False |- _ => destruct H
      | H : _ \/ _ |- _ => destruct H
      | H : exists _, _ |- _ => destruct H
      | H : (_, _) = (_, _) |- _ => inversion H; subst; clear H
      | H : _ = _ :> bop _ |- _ => try discriminate; subst
    end; try discriminate; auto; try congruence;
  right; split; congruence.
Qed.
Print Assumptions C05_close_still_delivers.

(** Non-vacuity: close() with one consumer asleep and later notifications. *)
Example C05_case : exists c, q_reachable false 3 0 1 c /\ closed_in (hist c) /\ quiescent c /\
  In (EDone 0 BPull BThrowClosed) (hist c) /\ In (EDone 2 (BTryPushBack 4) (BSt st_closed)) (hist c).
Proof.
  eexists. split.
  - exists (call1 0 BPull ++ call1 1 BClose ++ [LRun _ 1 [] false; LRun _ 1 [] false] ++
            [LRun _ 0 [] false] ++ call1 2 (BTryPushBack 4)). vm_compute. reflexivity.
  - vm_compute. repeat split; auto. exists 1, BVoid. auto 6.
Qed.

(** ** C06: wait_push_back may throw instead of returning [closed] *)

Theorem C06_wait_push_back_refuted : exists c, q_reachable false 3 0 1 c /\
  In (EDone 1 (BWaitPushBack 6) BThrowClosed) (hist c).
Proof.
  eexists. split.
  - exists (call1 0 (BPush 5) ++ call1 1 (BWaitPushBack 6) ++ call1 2 BClose ++
            [LRun _ 2 [] false; LRun _ 2 [] false; LRun _ 1 [] false]). vm_compute. reflexivity.
  - vm_compute. auto.
Qed.
Print Assumptions C06_wait_push_back_refuted.

(** What holds: it never stores the element once closed, it always reports closure
    one way or the other, and it does so by the status if the queue was closed
    before the call. *)
Theorem C06_wait_push_back_partial :
  forall (V : Type) (d : V) (b : bool) (n max : nat) (c : qconf V) t x,
  1 <= max -> q_reachable b n d max c -> closed_in (hist c) ->
  (forall c' r, q_completes b c c' t (BWaitPushBack x) r ->
     (r = BSt st_closed \/ r = BThrowClosed \/ r = BThrowIntr) /\ stored (sh c') = stored (sh c)) /\
  (forall l c1 c2 e ps, nth_error (thr c) t = Some (Idle _ _ _ l) ->
     step (bprog V b) c (LCall _ t (BWaitPushBack x)) = Some c1 ->
     step (bprog V b) c1 (LRun _ t ps e) = Some c2 ->
     hist c2 = EDone t (BWaitPushBack x) (BSt st_closed) :: hist c1).
Proof.
  intros V d b n max c t x Hm Hr Hc. apply (reachable_closed Hm Hr) in Hc. split.
  - intros c' r (lb & Hs & Hh).
    pose proof (done_step lb Hm Hr Hs Hh) as H. inversion H; subst; simpl in *;
    repeat match goal with
      | H : False |- _ => destruct H
      | H : _ \/ _ |- _ => destruct H
      | H : exists _, _ |- _ => destruct H
      | H : (_, _) = (_, _) |- _ => inversion H; subst; clear H
      | H : _ = _ :> bop _ |- _ => try discriminate; subst
    end; try congruence; auto 6.
  - intros l c1 c2 e ps Ht H1 H2. simpl in H1. rewrite Ht in H1. injection H1 as <-.
    simpl in H2. rewrite nth_error_upd_same in H2 by (eapply nth_error_lt; eauto).
    replace (bfrag t e (KGo (BWaitPushBack x)) (sh c)) with (ret (sh c) (BSt st_closed)) in H2
      by (simpl; unfold wait_push_back; rewrite Hc; reflexivity).
    simpl in H2. injection H2 as <-. reflexivity.
Qed.
Print Assumptions C06_wait_push_back_partial.

(** ** C07: a notification can be swallowed by an interrupted waiter *)

Theorem C07_interrupt_refuted : exists c l cv k, q_reachable true 3 0 2 c /\ quiescent c /\
  nth_error (thr c) 1 = Some (Asleep l BPull cv k) /\ stored (sh c) = [5].
Proof.
  do 4 eexists. split.
  - exists (call1 0 BPull ++ call1 1 BPull ++ call1 2 (BPush 5) ++
            (* thread 2 notifies thread 0, which is then interrupted *)
            [LRun _ 2 [0] false; LIntr _ _ 0; LRun _ 0 [] false]). vm_compute. reflexivity.
  - repeat split; vm_compute; reflexivity.
Qed.
Print Assumptions C07_interrupt_refuted.

(** What holds: each interrupted operation strands at most one element (slot), and
    none is stranded once the queue is closed. *)
Theorem C07_interrupt_partial :
  forall (V : Type) (d : V) (n max : nat) (c : qconf V) t l op cv k,
  1 <= max -> q_reachable true n d max c -> quiescent c ->
  nth_error (thr c) t = Some (Asleep l op cv k) ->
  q_closed (sh c) = false /\
  (((op = BPull \/ op = BWaitPullFront) /\ length (stored (sh c)) <= interrupted (hist c)) \/
   ((exists x, op = BPush x \/ op = BWaitPushBack x) /\
      max <= length (stored (sh c)) + interrupted (hist c))).
Proof.
  intros V d n max c t l op cv k Hm Hr Hq Ht.
  destruct (blocked_gen Hm Hr Hq Ht) as [Hc H]. split; auto.
  destruct op; try contradiction; [right|right|left|left]; split; eauto.
Qed.
Print Assumptions C07_interrupt_partial.

(** Cases for C06 and C07. The queue is closed, holds 5, and thread 1 has yet to call. *)
Example C06_case : exists c, q_reachable false 3 0 1 c /\ closed_in (hist c) /\ stored (sh c) = [5] /\ nth_error (thr c) 1 = Some (Idle _ _ _ tt).
Proof.
  eexists. split.
  - exists (call1 0 (BPush 5) ++ call1 2 BClose ++ [LRun _ 2 [] false; LRun _ 2 [] false]). vm_compute. reflexivity.
  - vm_compute. repeat split; auto. exists 2, BVoid. auto.
Qed.
(** A producer sleeps although a slot is free: the wake-up for it was taken by the interrupted thread 1. *)
Example C07_producer_case : exists c l cv k, q_reachable true 4 0 1 c /\ quiescent c /\
  nth_error (thr c) 2 = Some (Asleep l (BPush 7) cv k) /\ stored (sh c) = [] /\ interrupted (hist c) = 1.
Proof.
  do 4 eexists. split.
  - exists (call1 0 (BPush 5) ++ call1 1 (BPush 6) ++ call1 2 (BPush 7) ++ call1 3 BPull ++
            [LRun _ 3 [1] false; LIntr _ _ 1; LRun _ 1 [] false]). vm_compute. reflexivity.
  - repeat split; vm_compute; reflexivity.
Qed.
