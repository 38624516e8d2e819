(** * Properties C13, C14 and C65: sync_timed_queue

    Model: TQ_Model.v; specification: TQ_Spec.v.  The heap functions of the
    standard library are any functions with the standard's contract.  [steady]
    distinguishes steady_clock from a clock that may be set back; [poll] is the
    polling interval used with the latter. *)

From Coq Require Import Permutation.
From Verif Require Import Monitor MonitorLemmas Settle SQ_Model SQ_Spec SQ_Proofs TQ_Model TQ_Spec TQ_Proofs TQ_For.

Notation tqconf V := (cfg (tq V) (tk V) (top_ V) (tres V) scv unit).
Definition tq_reachable {V} ph po steady poll (n : nat) (now : Z) (c : tqconf V) : Prop :=
  reachable (tqprog ph po steady poll) n (tq_new V now) tt c.
(** The step [c -> c'] is the moment at which [op] of thread [t] takes effect and returns [r]. *)
Definition tq_completes {V} ph po steady poll (c c' : tqconf V) t op r : Prop :=
  exists lb, step (tqprog ph po steady poll) c lb = Some c' /\ hist c' = EDone t op r :: hist c.

(** ** C13 *)

(** A delivered element was due at the clock reading at which it was taken, no stored element was due
    earlier, and it and nothing else leaves the queue.  For every clock. *)
Theorem C13_not_early_and_in_order :
  forall (V : Type) ph po steady poll n now (c c' : tqconf V) t op e,
  PQ_contract (@s_lt V) ph po -> tq_reachable ph po steady poll n now c ->
  tq_completes ph po steady poll c c' t op (TGot e) ->
  (snd e <= t_now (sh c'))%Z /\
  (forall e', In e' (t_data (sh c)) -> (snd e <= snd e')%Z) /\
  Permutation (t_data (sh c)) (e :: t_data (sh c')).
Proof.
  intros V ph po st poll n now c c' t op e HC Hr (lb & Hs & Hh).
  destruct (tq_done HC lb Hr Hs Hh) as (now0 & l' & Hst & Hp & _).
  inversion Hst; subst;
    repeat match goal with H : _ \/ _ |- _ => destruct H | H : _ /\ _ |- _ => destruct H end; try discriminate;
    try (split; [assumption|split; [assumption|]]; rewrite Hp; assumption).
Qed.
Print Assumptions C13_not_early_and_in_order.

(** Every operation does what the specification of a timed queue says, and nothing else changes the
    contents; with a steady clock the reading [now0] at which a pull found nothing due is taken during the call. *)
Theorem C13_exact :
  forall (V : Type) ph po steady poll n now (c c' : tqconf V) lb,
  PQ_contract (@s_lt V) ph po -> tq_reachable ph po steady poll n now c ->
  step (tqprog ph po steady poll) c lb = Some c' ->
  (t_data (sh c') = t_data (sh c) /\ t_closed (sh c') = t_closed (sh c)) \/
  exists t op r now0 l', hist c' = EDone t op r :: hist c /\
    tq_step now0 (t_now (sh c')) (t_data (sh c)) (t_closed (sh c)) op r l' (t_closed (sh c')) /\
    Permutation (t_data (sh c')) l' /\ (steady = true -> (t_now (sh c) <= now0)%Z).
Proof.
  intros V ph po st poll n now c c' lb HC Hr Hs.
  destruct (tq_quiet HC lb Hr Hs) as [H|(t & op & r & Hh)]; [left; exact H|right].
  destruct (tq_done HC lb Hr Hs Hh) as (now0 & l' & H). exists t, op, r, now0, l'. auto.
Qed.
Print Assumptions C13_exact.

(** Nothing is lost, duplicated or invented. *)
Theorem C13_conserved : forall (V : Type) ph po steady poll n now (c : tqconf V),
  PQ_contract (@s_lt V) ph po -> tq_reachable ph po steady poll n now c ->
  Permutation (t_accepted (hist c)) (t_delivered (hist c) ++ t_data (sh c)).
Proof.
  intros V ph po st poll n now c HC Hr. destruct (TInv_reachable HC Hr) as (_ & _ & _ & H). exact H.
Qed.
Print Assumptions C13_conserved.

(** With a steady clock no operation has undefined behaviour. *)
Theorem C13_steady_defined : forall (V : Type) ph po poll n now (c : tqconf V),
  PQ_contract (@s_lt V) ph po -> tq_reachable ph po true poll n now c ->
  ~ In (Crashed (tk V) (top_ V) scv unit) (thr c).
Proof. intros V ph po poll n now c HC Hr. exact (tq_no_crash HC eq_refl Hr). Qed.
Print Assumptions C13_steady_defined.

(** A pull_for(d) that reports timeout or not_ready has waited: between the call (step [c0 -> c1], [h] is what
    happened since, [t] has not returned) and its return the clock has advanced by at least [d]. *)
Theorem C13_pull_for_not_early :
  forall (V : Type) ph po poll (c0 c1 : tqconf V) ls c c' t d r h,
  step (tqprog ph po true poll) c0 (LCall _ t (TPullFor d)) = Some c1 ->
  run (tqprog ph po true poll) c1 ls = Some c -> hist c = h ++ hist c1 -> (forall op r', ~ In (EDone t op r') h) ->
  tq_completes ph po true poll c c' t (TPullFor d) r -> r = TSt qs_timeout \/ r = TSt qs_not_ready ->
  (t_now (sh c0) + d <= t_now (sh c'))%Z.
Proof.
  intros V ph po poll c0 c1 ls c c' t d r h H0 Hr Hh Hq (lb & Hs & Hd) Hg.
  exact (@for_not_early V ph po poll c0 c1 ls c lb c' t d r h H0 Hr Hh Hq Hs Hd Hg).
Qed.
Print Assumptions C13_pull_for_not_early.

Notation tcall t op ds := [LCall (bool * list Z) t op; LRun _ t [] (false, ds)].

(** Non-vacuity: two elements pushed out of order; the second push wakes the puller, which takes the earlier one. *)
Example C13_case : PQ_contract (@s_lt nat) sort_due pop_due /\ exists c c' : tqconf nat,
  tq_reachable sort_due pop_due true 100 2 0 c /\
  tq_completes sort_due pop_due true 100 c c' 1 TPull (TGot (8, 5%Z)) /\
  t_data (sh c) = [(8, 5%Z); (7, 9%Z)].
Proof.
  split; [exact due_contract|].
  assert (G : exists c1, run (tqprog sort_due pop_due true 100) (init _ _ _ _ 2 (tq_new nat 0) tt)
      (tcall 0 (TPush 7 9%Z) [] ++ tcall 1 TPull [1%Z] ++ tcall 0 (TPush 8 5%Z) []) = Some c1 /\
      (exists c2, step (tqprog sort_due pop_due true 100) c1 (LRun _ 1 [] (false, [5%Z])) = Some c2 /\
         hist c2 = EDone 1 TPull (TGot (8, 5%Z)) :: hist c1) /\
      t_data (sh c1) = [(8, 5%Z); (7, 9%Z)]).
  { eexists. split; [vm_compute; reflexivity|]. split; [eexists; split; vm_compute; reflexivity|reflexivity]. }
  destruct G as (c1 & H1 & (c2 & H2 & H3) & H4). exists c1, c2. split; [|split; [|exact H4]].
  - eexists. exact H1.
  - eexists. split; [exact H2|exact H3].
Qed.

(** pull_for(5) called at time 1 on a queue holding an element due at 9: it blocks, then gives up at 6. *)
Example C13_pull_for_case : exists (c0 c1 c c' : tqconf nat) ls h,
  step (tqprog sort_due pop_due true 100) c0 (LCall _ 1 (TPullFor 5%Z)) = Some c1 /\
  run (tqprog sort_due pop_due true 100) c1 ls = Some c /\ hist c = h ++ hist c1 /\
  (forall op r', ~ In (EDone 1 op r') h) /\
  tq_completes sort_due pop_due true 100 c c' 1 (TPullFor 5%Z) (TSt qs_not_ready) /\
  t_now (sh c0) = 1%Z /\ t_now (sh c') = 6%Z.
Proof.
  assert (G : exists c0 : tqconf nat, run (tqprog sort_due pop_due true 100) (init _ _ _ _ 2 (tq_new nat 1) tt)
      (tcall 0 (TPush 7 9%Z) []) = Some c0 /\ exists c1,
    step (tqprog sort_due pop_due true 100) c0 (LCall _ 1 (TPullFor 5%Z)) = Some c1 /\ exists c,
    run (tqprog sort_due pop_due true 100) c1 [LRun _ 1 [] (false, []); LTimeout _ _ 1] = Some c /\
    hist c = hist c1 /\ exists c',
    step (tqprog sort_due pop_due true 100) c (LRun _ 1 [] (false, [5%Z])) = Some c' /\
    hist c' = EDone 1 (TPullFor 5%Z) (TSt qs_not_ready) :: hist c /\ t_now (sh c0) = 1%Z /\ t_now (sh c') = 6%Z).
  { eexists. split; [vm_compute; reflexivity|]. eexists. split; [vm_compute; reflexivity|].
    eexists. split; [vm_compute; reflexivity|]. split; [reflexivity|].
    eexists. split; [vm_compute; reflexivity|]. split; [reflexivity|]. split; reflexivity. }
  destruct G as (c0 & _ & c1 & H1 & c & H2 & H3 & c' & H4 & H5 & H6 & H7).
  exists c0, c1, c, c', [LRun _ 1 [] (false, []); LTimeout _ _ 1], [].
  split; [exact H1|]. split; [exact H2|]. split; [exact H3|]. split; [intros op r' []|].
  split; [eexists; split; [exact H4|exact H5]|]. auto.
Qed.

(** ** C14 *)

(** Whenever a thread inside a pull gets to run while some stored element is due, it returns an element,
    whether or not the queue has been closed. *)
Theorem C14_due_is_delivered :
  forall (V : Type) ph po poll n now (c c' : tqconf V) t l op k ps ds e,
  PQ_contract (@s_lt V) ph po -> tq_reachable ph po true poll n now c ->
  In op [TPull; TWaitPull; TTryPull; TNBPull] \/ (exists tp, op = TPullUntil tp \/ op = TPullFor tp) ->
  nth_error (thr c) t = Some (Ready scv l op k) -> k <> TkIntr ->
  In e (t_data (sh c)) -> (snd e <= t_now (sh c))%Z ->
  step (tqprog ph po true poll) c (LRun _ t ps (false, ds)) = Some c' ->
  exists e', hist c' = EDone t op (TGot e') :: hist c.
Proof.
  intros V ph po poll n now c c' t l op k ps ds e HC Hr Hop Ht Hk Hi Hd Hs.
  exact (@due_delivered V ph po true poll HC n now c c' t l op k ps ds e eq_refl Hr Hop Ht Hk Hi Hd Hs).
Qed.
Print Assumptions C14_due_is_delivered.

(** A thread that stays asleep when nothing can step on its own: the queue is open, and it is empty or the
    thread wakes by itself no later than the earliest due time of a stored element.  In particular a push
    of an earlier element wakes it, and close() wakes every puller. *)
Theorem C14_no_lost_wakeup :
  forall (V : Type) ph po steady poll n now (c : tqconf V) l op cv k,
  PQ_contract (@s_lt V) ph po -> tq_reachable ph po steady poll n now c ->
  quiescent c -> In (Asleep l op cv k) (thr c) ->
  t_closed (sh c) = false /\
  (t_data (sh c) = [] \/
   exists tp, wakes_at k = Some tp /\ forall e, In e (t_data (sh c)) -> (tp <= snd e)%Z).
Proof.
  intros V ph po st poll n now c l op cv k HC Hr Hq Hi.
  destruct (tq_sleepers HC _ _ _ _ Hr Hq Hi) as (H1 & H2). split; [exact H2|].
  destruct k; simpl in H1; try contradiction; [left; exact H1|right; simpl; eauto].
Qed.
Print Assumptions C14_no_lost_wakeup.

(** A thread blocked in pull_until(tp) wakes by itself no later than [tp], and one blocked in pull_for(d) no later
    than [d] from now. *)
Theorem C14_timed_pull_bounded :
  forall (V : Type) ph po poll n now (c : tqconf V) l op cv k,
  tq_reachable ph po true poll n now c -> In (Asleep l op cv k) (thr c) ->
  (forall tp, op = TPullUntil tp -> exists w, wakes_at k = Some w /\ (w <= tp)%Z) /\
  (forall d, op = TPullFor d -> exists w, wakes_at k = Some w /\ (w <= t_now (sh c) + d)%Z).
Proof.
  intros V ph po poll n now c l op cv k Hr Hin. split.
  - intros tp ->. exact (@timed_bounded V ph po poll n now c l _ cv k Hr Hin tp eq_refl).
  - intros d ->. exact (@timed_bounded V ph po poll n now c l _ cv k Hr Hin _ eq_refl).
Qed.
Print Assumptions C14_timed_pull_bounded.

(** Running threads come to rest. *)
Theorem C14_comes_to_rest : forall (V : Type) ph po poll n now (c : tqconf V),
  PQ_contract (@s_lt V) ph po -> tq_reachable ph po true poll n now c ->
  exists ls c', run (tqprog ph po true poll) c ls = Some c' /\ quiescent c' /\
    Forall (fun lb => match lb with LRun _ _ _ _ => True | _ => False end) ls.
Proof.
  intros V ph po poll n now c HC Hr.
  exact (settles (false, []) (tq_direct ph po true poll) (fun c' H => tq_no_crash HC eq_refl H) Hr).
Qed.
Print Assumptions C14_comes_to_rest.

(** Non-vacuity: a puller asleep until 9 while an element due at 9 is stored; and delivery after close(). *)
Example C14_case : exists c : tqconf nat,
  tq_reachable sort_due pop_due true 100 2 0 c /\ quiescent c /\
  In (Asleep tt TPull Cond (TkOuter TPull None 9%Z)) (thr c) /\ t_data (sh c) = [(7, 9%Z)] /\
  exists c', run (tqprog sort_due pop_due true 100) c
     (tcall 0 TClose [] ++ [LRun _ 0 [] (false, []); LRun _ 1 [] (false, [20%Z])]) = Some c' /\
     hd_error (hist c') = Some (EDone 1 TPull (TGot (7, 9%Z))).
Proof.
  eexists. split; [|split; [|split; [|split]]].
  - exists (tcall 0 (TPush 7 9%Z) [] ++ tcall 1 TPull [1%Z]). vm_compute. reflexivity.
  - reflexivity.
  - vm_compute. auto.
  - reflexivity.
  - eexists. split; vm_compute; reflexivity.
Qed.

(** ** C65 *)

(** With a clock that can be set back, pull_until() on an empty open queue can read the top of an empty heap:
    its inner wait ends because the deadline 10 has passed (reading 12), and then the clock reads 5. *)
Theorem C65_clock_set_back_refuted : exists c : tqconf nat,
  tq_reachable sort_due pop_due false 100 1 0 c /\ t_data (sh c) = [] /\ t_closed (sh c) = false /\
  In (Crashed (tk nat) (top_ nat) scv unit) (thr c).
Proof.
  eexists. split; [|split; [|split]].
  - exists (tcall 0 (TPullUntil 10%Z) [0%Z] ++ [LTimeout _ _ 0; LRun _ 0 [] (false, [12%Z; (-7)%Z])]).
    vm_compute. reflexivity.
  - reflexivity.
  - reflexivity.
  - vm_compute. auto.
Qed.
Print Assumptions C65_clock_set_back_refuted.

(** What holds for such clocks: operations that have not run into this are exact (C13_exact), and no operation other than
    pull_until can. *)
Theorem C65_clock_set_back_partial :
  forall (V : Type) ph po poll n now (c c' : tqconf V) t ps e l op k,
  PQ_contract (@s_lt V) ph po -> tq_reachable ph po false poll n now c ->
  nth_error (thr c) t = Some (Ready scv l op k) ->
  step (tqprog ph po false poll) c (LRun _ t ps e) = Some c' ->
  nth_error (thr c') t = Some (Crashed (tk V) (top_ V) scv unit) ->
  (exists tp, op = TPullUntil tp) /\ t_data (sh c) = [] /\ t_closed (sh c) = false.
Proof.
  intros V ph po poll n now c c' t ps e l op k HC Hr Ht Hs Hcr. exact (@crash_only_until V ph po false poll HC n now c c' t ps e l op k eq_refl Hr Ht Hs Hcr).
Qed.
Print Assumptions C65_clock_set_back_partial.
