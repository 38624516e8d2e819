(** * C55: wait_for_any *)
From Verif Require Import MonitorLemmas WA_Proofs.
Set Implicit Arguments.

Definition never_crashes (c : waconf) : Prop := ~ In (Crashed wk wop wcv unit) (thr c).
(** thread [t] waits, inside a call of wait_for_any, for one of its futures to become ready *)
Definition waits_for_ready (c : waconf) (t : nat) : Prop :=
  exists l fs k, nth_error (thr c) t = Some (Asleep l (WWait fs) (CW t) k) /\ forall f u, In f fs -> ~ In (EDone u (WSet f) ROk) (hist c).
(** thread [t] is asleep waiting for a mutex *)
Definition waits_for_mutex (c : waconf) (t : nat) : Prop := exists l op k, nth_error (thr c) t = Some (Asleep l op CMut k).
Definition any_call (_ : wop) : bool := true.

(** C55, first part.  Whatever the arguments and the schedule, with interruptions and spurious wakeups: when wait_for_any returns an index, it is that of one of its
    arguments, and a value had been set in that future before the return. *)
Theorem wait_for_any_partial : forall n c, reachable (waprog any_call) n wa0 tt c -> never_crashes c /\
  forall h1 t fs r h0, hist c = h1 ++ EDone t (WWait fs) r :: h0 ->
    r = RIntr \/ exists i f u, r = RIdx i /\ nth_error fs i = Some f /\ In (EDone u (WSet f) ROk) h0.
Proof.
  intros n c Hr. split.
  - intros Hin. apply In_nth_error in Hin as [t Ht]. exact (v_st (Inv_reachable Hr) _ Ht).
  - intros h1 t fs r h0 Hh. destruct (event_step _ _ _ _ Hr Hh) as (c1 & lb & c2 & Hr1 & Hs & E1 & E2 & _).
    assert (Hr2 : reachable (waprog any_call) n wa0 tt c2) by (eapply reachable_step; eauto).
    pose proof (v_h (Inv_reachable Hr2) t (WWait fs) r) as Hh2. rewrite E2 in Hh2. specialize (Hh2 (or_introl eq_refl)). cbn in Hh2.
    destruct r as [i| |]; [right|left; reflexivity|contradiction]. destruct Hh2 as (f & Hf & Hd). exists i, f.
    destruct (DInv_reachable Hr2 f Hd) as [u Hu]. exists u. split; auto. split; auto. rewrite E2 in Hu. destruct Hu as [Hu|Hu]; [discriminate|auto].
Qed.
Print Assumptions wait_for_any_partial.

(** C55, second part.  If every call lists its futures in the order of one numbering of the shared states (in particular without duplicates), calls on overlapping
    sets, concurrent with each other and with set_value, never block each other: once no thread can take a step, the only threads that wait are in calls of wait_for_any
    none of whose futures has been set. *)
Theorem wait_for_any_ordered_partial : forall n c, reachable (waprog ordered) n wa0 tt c -> quiescent c ->
  forall t x, nth_error (thr c) t = Some x -> (exists l, x = Idle wk wop wcv l) \/ waits_for_ready c t.
Proof.
  intros n c Hr Hq t x Ht. destruct (quiescent_settled Hq Ht) as [(l & ->)|(l & op & cv & k & ->)]; [left; eauto|right].
  destruct (ordered_rest Hr Hq _ Ht) as (fs & -> & -> & Hd). exists l, fs, k. split; auto. intros f u Hf Hin.
  pose proof (v_h (Inv_reachable Hr) _ _ _ Hin) as Hd'. cbn in Hd'. rewrite (Hd f Hf) in Hd'. discriminate.
Qed.
Print Assumptions wait_for_any_ordered_partial.

Definition cl_ (t : nat) (op : wop) : label wop unit := LCall unit t op.
Definition r_ (t : nat) : label wop unit := LRun wop t [] tt.
Ltac witness P n ls := let c := fresh "c" in let E := fresh "E" in
  destruct (run P (init wk wop wres wcv n wa0 tt) ls) as [c|] eqn:E; [|vm_compute in E; discriminate]; exists c; split; [exists ls; exact E|]; vm_compute in E; injection E as <-.

(** C55 in full is false.  Two threads wait for the same two futures, given in opposite orders: each holds one mutex and waits for the other;
    a third thread's set_value on the first future never returns either.  And one thread that gives the same future twice blocks itself. *)
Theorem wait_for_any_refuted :
  (exists c, reachable (waprog any_call) 3 wa0 tt c /\ quiescent c /\
     hist c = [ECall wres 2 (WSet 0); ECall wres 1 (WWait [1; 0]); ECall wres 0 (WWait [0; 1])] /\ (forall t, t < 3 -> waits_for_mutex c t)) /\
  (exists c, reachable (waprog any_call) 2 wa0 tt c /\ quiescent c /\
     hist c = [ECall wres 0 (WWait [0; 0]); EDone 1 (WSet 0) ROk; ECall wres 1 (WSet 0)] /\ waits_for_mutex c 0).
Proof.
  split.
  - witness (waprog any_call) 3 [cl_ 0 (WWait [0; 1]); cl_ 1 (WWait [1; 0]); cl_ 2 (WSet 0); r_ 0; r_ 0; r_ 0; r_ 0; r_ 1; r_ 1; r_ 1; r_ 1; r_ 0; r_ 1; r_ 0; r_ 1; r_ 2].
    split; [reflexivity|]. split; [reflexivity|]. intros [|[|[|t]]] Ht; try lia; eexists; eexists; eexists; reflexivity.
  - witness (waprog any_call) 2 [cl_ 1 (WSet 0); r_ 1; cl_ 0 (WWait [0; 0]); r_ 0; r_ 0; r_ 0; r_ 0; r_ 0; r_ 0].
    split; [reflexivity|]. split; [reflexivity|]. eexists; eexists; eexists; reflexivity.
Qed.
Print Assumptions wait_for_any_refuted.

(** ** The hypotheses are met *)
(** two overlapping waits, both woken by one set_value *)
Example wait_story : exists c, reachable (waprog ordered) 3 wa0 tt c /\ quiescent c /\ In (EDone 0 (WWait [0; 1]) (RIdx 1)) (hist c) /\ In (EDone 1 (WWait [1; 2]) (RIdx 0)) (hist c).
Proof.
  witness (waprog ordered) 3 [cl_ 0 (WWait [0; 1]); r_ 0; r_ 0; r_ 0; r_ 0; r_ 0; r_ 0; r_ 0; r_ 0; cl_ 1 (WWait [1; 2]); r_ 1; r_ 1; r_ 1; r_ 1; r_ 1; r_ 1; r_ 1; r_ 1; cl_ 2 (WSet 1); r_ 2;
    r_ 0; r_ 1; r_ 0; r_ 1; r_ 1; r_ 0; r_ 0; r_ 0; r_ 1; r_ 1; r_ 1].
  split; [reflexivity|]. simpl; auto 10.
Qed.
(** a wait for two futures, one of the three set: at rest, waiting *)
Example waiting_story : exists c, reachable (waprog ordered) 2 wa0 tt c /\ quiescent c /\ waits_for_ready c 0 /\ In (EDone 1 (WSet 2) ROk) (hist c).
Proof.
  witness (waprog ordered) 2 [cl_ 0 (WWait [0; 1]); r_ 0; r_ 0; r_ 0; r_ 0; r_ 0; r_ 0; r_ 0; r_ 0; cl_ 1 (WSet 2); r_ 1].
  split; [reflexivity|]. split; [|simpl; auto]. exists tt, [0; 1], (KRelock [0; 1] false). split; [reflexivity|]. simpl. intros f u Hf [H|[H|[H|[]]]]; try discriminate. injection H as _ <-. destruct Hf as [H|[H|[]]]; discriminate.
Qed.
