(** * C51: continuations *)
From Verif Require Import MonitorLemmas FC_Model FC_Proofs.
Set Implicit Arguments.

(** the parent is known to be ready: a call that made it so, or found it so, has ended *)
Definition seen_ready (h : list (event cop cres)) : Prop := (exists t r, In (EDone t OSet r) h) \/ exists t, In (EDone t OReady (RBool true)) h.

(** C51.  Whatever the schedule, however deep continuations attach further ones and whichever launches throw: no continuation is launched twice, none that was not attached, and none
    is launched (or given up) before the parent is ready. *)
Theorem continuation_once : forall n c, reachable fcprog n fc0 tt c ->
  (forall x, occ (launched (sh c)) x <= 1) /\ (forall x, In x (launched (sh c)) -> x < nxt (sh c)) /\
  (ready (sh c) = false -> launched (sh c) = [] /\ lost (sh c) = [] /\ forall x, x < nxt (sh c) -> occ (conts (sh c)) x = 1) /\ ~ In (Crashed ck cop ccv unit) (thr c).
Proof.
  intros n c Hr. pose proof (Inv_reachable Hr) as I. split; [|split; [|split]].
  - intros x. pose proof (v_cnt I x) as H. unfold copies, one in H. destruct (x <? nxt (sh c)); lia.
  - intros x Hx. pose proof (v_cnt I x) as H. unfold copies, one in H. apply (count_occ_In Nat.eq_dec) in Hx. fold (occ (launched (sh c)) x) in Hx.
    destruct (x <? nxt (sh c)) eqn:E; [apply Nat.ltb_lt; auto|lia].
  - intros Hn. assert (L : launched (sh c) = []) by (destruct (launched (sh c)) eqn:E; auto; rewrite (v_laun I) in Hn; congruence).
    assert (L' : lost (sh c) = []) by (destruct (lost (sh c)) eqn:E; auto; rewrite (v_lost I) in Hn; congruence). split; auto. split; auto.
    intros x Hx. pose proof (v_cnt I x) as H. unfold copies, one in H. rewrite L, L', (proj2 (Nat.ltb_lt _ _) Hx) in H. cbn in H.
    assert (S0 : sumw (pend x) (thr c) = 0).
    { apply sumw_zero. intros y Hy. pose proof (v_st I) as Hst. rewrite Forall_forall in Hst. destruct (Hst _ Hy) as [Hf _]. destruct y as [l|l op k|l op cv k|l ns|]; auto.
      destruct Hf as (_ & _ & Hf). destruct k; [reflexivity|rewrite Hf in Hn by reflexivity; discriminate|rewrite Hf in Hn by reflexivity; discriminate]. }
    lia.
  - intros Hin. pose proof (v_st I) as Hst. rewrite Forall_forall in Hst. destruct (Hst _ Hin) as [[] _].
Qed.
Print Assumptions continuation_once.

(** C51.  Once the parent is ready and no call is in progress, every continuation ever attached, before or after, has been launched exactly once, provided no launch has thrown.  Missing:
    when a launch throws. *)
Theorem continuation_all_partial : forall n c, reachable fcprog n fc0 tt c -> quiescent c -> seen_ready (hist c) -> lost (sh c) = [] ->
  forall x, x < nxt (sh c) -> occ (launched (sh c)) x = 1.
Proof.
  intros n c Hr Hq Hs Hl x Hx. pose proof (Inv_reachable Hr) as I.
  assert (Hrd : ready (sh c) = true) by (destruct Hs as [(t & r & H)|(t & H)]; [exact (v_set I _ _ H)|exact (v_rdy I _ H eq_refl)]).
  pose proof (v_cnt I x) as H. unfold copies, one in H. rewrite (v_empty I Hrd), Hl, (at_rest I Hq), (proj2 (Nat.ltb_lt _ _) Hx) in H. cbn in H. lia.
Qed.
Print Assumptions continuation_all_partial.

Ltac witness n ls := let c := fresh "c" in let E := fresh "E" in
  destruct (run fcprog (init ck cop cres ccv n fc0 tt) ls) as [c|] eqn:E; [|vm_compute in E; discriminate]; exists c; split; [exists ls; exact E|]; vm_compute in E; injection E as <-.

(** C51.  If the launch of one continuation throws (no thread can be created, its executor is closed), those attached after it to the same parent are never launched. *)
Theorem continuation_all_refuted : exists c, reachable fcprog 2 fc0 tt c /\ quiescent c /\
  hist c = [EDone 1 OReady (RBool true); ECall cres 1 OReady; EDone 0 OSet RThrow; ECall cres 0 OSet; EDone 1 OThen ROk; EDone 0 OThen ROk; ECall cres 1 OThen; ECall cres 0 OThen] /\
  launched (sh c) = [] /\ conts (sh c) = [] /\ lost (sh c) = [0; 1].
Proof.
  witness 2 [LCall cact 0 OThen; LCall cact 1 OThen; LRun cop 0 [] AGo; LRun cop 1 [] AGo; LCall cact 0 OSet; LRun cop 0 [] AGo; LRun cop 0 [] AThrow; LCall cact 1 OReady; LRun cop 1 [] AGo].
  repeat split.
Qed.
Print Assumptions continuation_all_refuted.

(** ** The hypotheses are met *)
(** one continuation attached before, one while the first runs (from inside it), one by another thread meanwhile *)
Example continuation_story : exists c, reachable fcprog 2 fc0 tt c /\ quiescent c /\ seen_ready (hist c) /\ lost (sh c) = [] /\ nxt (sh c) = 3 /\ launched (sh c) = [1; 2; 0].
Proof.
  witness 2 [LCall cact 0 OThen; LRun cop 0 [] AGo; LCall cact 0 OSet; LRun cop 0 [] AGo; LRun cop 0 [] AGo; LRun cop 0 [] AAttach; LCall cact 1 OThen; LRun cop 1 [] AGo; LRun cop 1 [] AGo;
    LRun cop 0 [] AGo; LRun cop 1 [] AGo; LRun cop 1 [] AGo; LRun cop 0 [] AGo; LRun cop 0 [] AGo; LRun cop 0 [] AGo; LRun cop 0 [] AGo].
  split; [reflexivity|]. split; [left; exists 0, ROk; simpl; auto|]. repeat split.
Qed.
