(** * C77, C78: condition variables on Windows

    Model: WC_Model.v; specification: WC_Spec.v. *)
From Verif Require Import MonWake WC_Model WC_Spec WC_Proofs.
Set Implicit Arguments.
Definition wc_reachable (threads : nat) (c : wcconf) : Prop := reachable wcprog threads cv0 tt c.
Local Notation wo t := (LCall unit t (OWait false)).
Local Notation n1 t := (LCall unit t OOne).
Local Notation na t := (LCall unit t OAll).
Local Notation r t := (LRun cop t [] tt).
Ltac witness n ls := let c := fresh "c" in let E := fresh "E" in
  destruct (run wcprog (init ck cop cres nat n cv0 tt) ls) as [c|] eqn:E; [|vm_compute in E; discriminate]; exists c; split; [exists ls; exact E|]; vm_compute in E; injection E as <-.

(** ** C77: notify_one wakes a thread that is waiting *)

(** Intended: if thread [t] was waiting when notify_one was called and still is, then some thread that was waiting at the time of the call has been woken since. *)
Definition C77_statement : Prop := forall threads c t l1 l2, wc_reachable threads c -> quiescent c -> wc_blocked c t ->
  log (sh c) = l2 ++ AOne :: l1 -> waiting_at l1 t = true -> ~ In (AReg t) l2 ->
  exists u, waiting_at l1 u = true /\ In (AWoke u) l2.
(** It is false: threads that begin to wait after the call can take the wake-up.  Thread 0 alone waits and notify_one is called; before thread 0 has reacted, threads 1, 2 and 3 begin to wait,
    in two generations, and notify_one is called twice more.  Threads 1, 2 and 3 use up the three wake-ups. *)
Definition steal : list (label cop unit) :=
  [wo 0; r 0; r 0] ++ [n1 4; r 4; r 4] ++ [wo 1; r 1; r 1; wo 2; r 2; r 2] ++ [n1 4; r 4; r 4] ++ [wo 3; r 3; r 3] ++ [n1 4; r 4; r 4] ++
  [r 1; r 1; r 1; r 2; r 2; r 2; r 3; r 3; r 3] ++ [r 0; r 0; r 0; r 0; r 0; r 0; r 0].
Lemma steal_run : exists c, wc_reachable 5 c /\ quiescent c /\ wc_blocked c 0 /\
  log (sh c) = [AWoke 3; AWoke 2; AWoke 1; AOne; AReg 3; AOne; AReg 2; AReg 1; AOne; AReg 0].
Proof.
  witness 5 steal. split; [|split; [|reflexivity]].
  - unfold quiescent. cbn. repeat constructor; unfold settled; eauto 8.
  - unfold wc_blocked. cbn. eauto 8.
Qed.
Theorem C77_notify_one_wakes_a_waiter_refuted : ~ C77_statement.
Proof.
  intros H. destruct steal_run as (c & Hr & Hq & Hb & El). assert (X : exists u, waiting_at [AReg 0] u = true /\ In (AWoke u) [AWoke 3; AWoke 2; AWoke 1; AOne; AReg 3; AOne; AReg 2; AReg 1]); [apply (H 5 c 0 [AReg 0] [AWoke 3; AWoke 2; AWoke 1; AOne; AReg 3; AOne; AReg 2; AReg 1] Hr Hq Hb El); [reflexivity|clear H; cbn; intuition discriminate]|destruct X as (u & Hu & Hw)].
  clear H. destruct u; [|discriminate Hu]. cbn in Hw. intuition discriminate.
Qed.
Print Assumptions C77_notify_one_wakes_a_waiter_refuted.

(** What holds: each call of notify_one wakes a thread.  When no thread can take a step any more and thread [t] is blocked in a wait, then for every notify_one since it began to wait there has been a
    wake-up after that call (of some thread, perhaps of one that came later), a different one for each call.
    Calls at a time when there has been a notification for every wait begun so far do not count. *)
Theorem C77_notify_one_partial : forall threads c t, wc_reachable threads c -> quiescent c -> wc_blocked c t -> owed t (log (sh c)) = 0.
Proof. intros threads c t Hr Hq Hb. exact (proj1 (wc_rest Hr Hq Hb)). Qed.
Print Assumptions C77_notify_one_partial.

(** No spurious wake-ups: no more waits return as woken than there have been waits notified. *)
Theorem C77_no_spurious_wakeup : forall threads c, wc_reachable threads c -> woken_returns (hist c) <= granted (log (sh c)).
Proof. intros threads c Hr. exact (wc_returns Hr). Qed.
Print Assumptions C77_no_spurious_wakeup.

(** Two threads wait, notify_one wakes one of them: the other is blocked, with nothing owed. *)
Example C77_case : exists c, wc_reachable 3 c /\ quiescent c /\ wc_blocked c 1 /\ log (sh c) = [AWoke 0; AOne; AReg 1; AReg 0] /\
  woken_returns (hist c) = 1 /\ granted (log (sh c)) = 1.
Proof.
  witness 3 ([wo 0; r 0; r 0; wo 1; r 1; r 1; n1 2; r 2; r 2] ++ [r 0; r 0; r 0; r 1]). split; [|split; [|repeat split]].
  - unfold quiescent. cbn. repeat constructor; unfold settled; eauto 8.
  - unfold wc_blocked. cbn. eauto 8.
Qed.
(** [owed] counts: before thread 0 has reacted, one wake-up is owed to it. *)
Example C77_owed : owed 0 [AOne; AReg 1; AReg 0] = 1 /\ owed 0 [AOne; AOne; AReg 0] = 1 /\ owed 0 [AWoke 1; AOne; AOne; AReg 1; AReg 0] = 1. Proof. repeat split. Qed.

(** ** C78: notify_all wakes every thread that is waiting *)
Definition C78_statement : Prop := forall threads c t, wc_reachable threads c -> quiescent c -> wc_blocked c t -> all_since t (log (sh c)) = false.
(** It is false: as in [steal], and notify_all is called after the first notify_one, when thread 0 has been notified but has not reacted. *)
Definition steal_all : list (label cop unit) :=
  [wo 0; r 0; r 0] ++ [n1 4; r 4; r 4; na 4; r 4] ++ [wo 1; r 1; r 1; wo 2; r 2; r 2] ++ [n1 4; r 4; r 4] ++ [wo 3; r 3; r 3] ++ [n1 4; r 4; r 4] ++
  [r 1; r 1; r 1; r 2; r 2; r 2; r 3; r 3; r 3] ++ [r 0; r 0; r 0; r 0; r 0; r 0; r 0].
Theorem C78_notify_all_wakes_all_refuted : ~ C78_statement.
Proof.
  intros H. assert (X : exists c, wc_reachable 5 c /\ (quiescent c /\ wc_blocked c 0 /\ all_since 0 (log (sh c)) = true)).
  { witness 5 steal_all. split; [|split; [|reflexivity]].
    - unfold quiescent. cbn. repeat constructor; unfold settled; eauto 8.
    - unfold wc_blocked. cbn. eauto 8. }
  destruct X as (c & Hr & Hq & Hb & E). rewrite (H 5 c 0 Hr Hq Hb) in E. discriminate.
Qed.
Print Assumptions C78_notify_all_wakes_all_refuted.

(** What holds: it wakes all of them if there has not been a notification for every wait begun so far; in particular if notify_one is not used. *)
Theorem C78_notify_all_partial : forall threads c t, wc_reachable threads c -> quiescent c -> wc_blocked c t ->
  all_since_served t (log (sh c)) = false /\ (~ In AOne (log (sh c)) -> all_since t (log (sh c)) = false).
Proof. intros threads c t Hr Hq Hb. exact (proj2 (wc_rest Hr Hq Hb)). Qed.
Print Assumptions C78_notify_all_partial.

(** Threads 0 and 1 wait, notify_all wakes both; thread 0 waits again and is blocked. *)
Example C78_case : exists c, wc_reachable 3 c /\ quiescent c /\ wc_blocked c 0 /\ log (sh c) = [AReg 0; AWoke 1; AWoke 0; AAll; AReg 1; AReg 0].
Proof.
  witness 3 ([wo 0; r 0; r 0; wo 1; r 1; r 1; na 2; r 2; r 2] ++ [r 0; r 0; r 0; r 1; r 1; r 1; wo 0; r 0; r 0]). split; [|split; [|reflexivity]].
  - unfold quiescent. cbn. repeat constructor; unfold settled; eauto 8.
  - unfold wc_blocked. cbn. eauto 8.
Qed.
