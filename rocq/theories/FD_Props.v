(** * C52: waiting for a continuation, for every launch policy of the parent and of the continuation *)
From Verif Require Import MonitorLemmas FD_Model FD_Proofs.
Set Implicit Arguments.

(** the operations on a parent that is deferred ([def]) or not: a deferred parent is made ready by waiting for it only *)
Definition ops (def : bool) (op : dop) : bool := match op with OSet => negb def | _ => true end.
(** then() on a future (not a shared_future) leaves no other access to the parent *)
Definition child_only (op : dop) : bool := match op with OWait | OWork => true | _ => false end.
Definition waits_child (x : tst) : Prop := exists l cv k, x = Asleep l OWait cv k.
(** some thread is ready to carry out asynchronous continuations *)
Definition has_worker (c : fdconf) : Prop := exists t l cv k, nth_error (thr c) t = Some (Asleep l OWork cv k).

(** C52.  The parent is not deferred and has been made ready, or it is deferred and so is the continuation; threads are not interrupted; for an asynchronous continuation there is a thread for it.  Then nobody
    stays waiting for the continuation.  Missing: a deferred parent with another policy, and interruption. *)
Theorem continuation_wait_partial : forall pol def n c, (def = true -> pol = PDeferred) ->
  reachable (fdprog pol (ops def) false) n (finit pol def) tt c -> quiescent c ->
  (def = true \/ exists t r, In (EDone t OSet r) (hist c)) -> (pol = PAsync -> has_worker c) ->
  Forall (fun x => ~ waits_child x) (thr c).
Proof.
  intros pol def n c Hc Hr Hq Hd Hw. assert (Hal : def = true -> ops def OSet = false) by (intros ->; reflexivity).
  pose proof (Inv_reachable Hal Hr) as HI. apply Forall_forall. intros x Hx (l & cv & k & ->). apply In_nth_error in Hx as [t Ht].
  apply (at_rest Hal HI Hq Hc) with (t := t) (l := l) (cv := cv) (k := k); auto. intros E. destruct Hd as [Hd|(u & r & Hd)]; [congruence|]. exact (v_set HI _ _ Hd).
Qed.
Print Assumptions continuation_wait_partial.

(** C52 is false for a deferred parent with any other policy (launch::async, launch::sync, an executor, unwrap): the parent's function is never called and no wait for the continuation ever returns. *)
Theorem continuation_wait_deferred_refuted : forall pol intr n c, pol <> PDeferred ->
  reachable (fdprog pol child_only intr) n (finit pol true) tt c ->
  pdone (sh c) = false /\ (forall t r, ~ In (EDone t OWait r) (hist c)).
Proof.
  intros pol intr n c Hp Hr.
  set (J := fun c : fdconf => sh c = finit pol true /\ (forall t r, ~ In (EDone t OWait r) (hist c)) /\
    Forall (fun x : tst => match x with Idle _ _ _ _ => True | Ready _ _ op k | Asleep _ op _ k => k = KStart op /\ child_only op = true | _ => False end) (thr c)).
  assert (HJ : J c).
  { revert c Hr. apply (reachable_inv (fdprog pol child_only intr) J).
    - split; [reflexivity|]. split; [intros t r []|]. apply Forall_forall. intros x Hx. apply repeat_spec in Hx. now subst.
    - intros c c' (J1 & J2 & J3) Hs. assert (J3' : forall t x, nth_error (thr c) t = Some x -> match x with Idle _ _ _ _ => True | Ready _ _ op k | Asleep _ op _ k => k = KStart op /\ child_only op = true | _ => False end)
        by (intros t x Hx; rewrite Forall_forall in J3; apply J3; eapply nth_error_In; eauto).
      destruct Hs as
       [t l op Ht Hpre ->|t ps e l op k s' ns o thr' Ht Hfr Hd ->|t p l m ns thr' Ht Hd ->
       |t l op cv k Ht ->|t l op cv k k' Ht Hk ->|t l op cv k k' Ht Hk ->|t l op k k' Ht Hk ->]; specialize (J3' _ _ Ht); cbn in J3'; try contradiction.
      + split; auto. split; [intros u r [H|H]; [discriminate|exact (J2 _ _ H)]|]. apply Forall_upd; auto; split; auto.
      + destruct J3' as [-> Hop]. assert (E : s' = finit pol true /\ ns = [] /\ exists cv, o = OSleep dres cv (KStart op)).
        { rewrite J1 in Hfr. destruct op; try discriminate Hop; destruct pol; try congruence; cbn in Hfr; inversion Hfr; subst; eauto. }
        destruct E as (-> & -> & cv & ->). cbn in Hd. injection Hd as <-. split; [reflexivity|]. split; auto. apply Forall_upd; auto; split; auto.
      + split; auto. split; auto. apply Forall_upd; auto.
      + discriminate Hk.
      + destruct J3' as [-> _]. cbn in Hk. unfold d_intr in Hk. destruct intr; discriminate.
      + destruct J3' as [-> _]. cbn in Hk. unfold d_intr in Hk. destruct intr; discriminate. }
  destruct HJ as (-> & J2 & _). split; auto.
Qed.
Print Assumptions continuation_wait_deferred_refuted.

Ltac witness P n s ls := let c := fresh "c" in let E := fresh "E" in
  destruct (run P (init dk dop dres dcv n s tt) ls) as [c|] eqn:E; [|vm_compute in E; discriminate]; exists c; split; [exists ls; exact E|]; vm_compute in E; injection E as <-.
Definition cl_ (t : nat) (op : dop) : label dop unit := LCall unit t op.
Definition r_ (t : nat) : label dop unit := LRun dop t [] tt.

(** C52.  A thread waits for a deferred continuation and is interrupted while the parent is not ready; the parent is made ready; every later wait for the continuation hangs: it is no longer
    marked deferred, and nobody runs it. *)
Theorem continuation_wait_interrupted_refuted : exists c, reachable (fdprog PDeferred (ops false) true) 2 (finit PDeferred false) tt c /\ quiescent c /\
  hist c = [ECall dres 0 OWait; EDone 1 OSet ROk; ECall dres 1 OSet; EDone 0 OWait RIntr; ECall dres 0 OWait] /\ (exists l cv k, nth_error (thr c) 0 = Some (Asleep l OWait cv k)).
Proof.
  witness (fdprog PDeferred (ops false) true) 2 (finit PDeferred false) [cl_ 0 OWait; r_ 0; r_ 0; LIntr dop unit 0; r_ 0; cl_ 1 OSet; r_ 1; cl_ 0 OWait; r_ 0].
  split; [reflexivity|]. split; [reflexivity|]. eexists; eexists; eexists; reflexivity.
Qed.
Print Assumptions continuation_wait_interrupted_refuted.

(** ** The hypotheses are met *)
(** deferred parent and deferred continuation, two waiters *)
Example wait_deferred_story : exists c, reachable (fdprog PDeferred (ops true) false) 2 (finit PDeferred true) tt c /\ quiescent c /\ In (EDone 0 OWait ROk) (hist c) /\ In (EDone 1 OWait ROk) (hist c).
Proof.
  witness (fdprog PDeferred (ops true) false) 2 (finit PDeferred true) [cl_ 0 OWait; cl_ 1 OWait; r_ 0; r_ 1; r_ 0; r_ 0; r_ 0; r_ 1; r_ 0; r_ 1].
  split; [reflexivity|]. simpl; auto 10.
Qed.
(** a promise and an asynchronous continuation *)
Example wait_async_story : exists c, reachable (fdprog PAsync (ops false) false) 4 (finit PAsync false) tt c /\ quiescent c /\ has_worker c /\ In (EDone 1 OSet ROk) (hist c) /\ In (EDone 0 OWait ROk) (hist c).
Proof.
  witness (fdprog PAsync (ops false) false) 4 (finit PAsync false) [cl_ 0 OWait; r_ 0; cl_ 2 OWork; r_ 2; cl_ 3 OWork; r_ 3; cl_ 1 OSet; r_ 1; r_ 2; r_ 3; r_ 2; r_ 0].
  split; [reflexivity|]. split; [exists 3; eexists; eexists; eexists; reflexivity|]. simpl; auto 10.
Qed.
(** a deferred parent and a synchronous continuation: a thread waits for ever *)
Example wait_stuck_story : exists c, reachable (fdprog PSync child_only true) 1 (finit PSync true) tt c /\ quiescent c /\ (exists l cv k, thr c = [Asleep l OWait cv k]).
Proof.
  witness (fdprog PSync child_only true) 1 (finit PSync true) [cl_ 0 OWait; r_ 0].
  split; [reflexivity|]. eexists; eexists; eexists; reflexivity.
Qed.
