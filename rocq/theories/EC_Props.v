(** * C127: continuations are carried out by the executor that was named, otherwise by that of the future which they continue *)
From Verif Require Import EC_Model EC_Spec EC_Inv.
Set Implicit Arguments.

Definition after (ls : list label) : sys := match runl sys0 ls with Some s => s | None => sys0 end.
Lemma after_reach : forall ls, reach (after ls).
Proof. intros ls. unfold after. destruct (runl sys0 ls) as [s|] eqn:E; [exists ls; exact E|exists []; reflexivity]. Qed.

(** async(ex, f).then(g).then(h): g is over, its parameter and f's closure are gone, and h is launched *)
Definition chain_run : list label :=
  [LAsync 7; LThen 0 None false; LThen 1 None false; LRun 0; LFinish 0; LProdGone 0; LRun 1; LArgGone 1; LFree 0; LFinish 1].
Theorem inherited_executor_refuted : ~ (forall s, reach s -> bad s = false).
Proof. intros H. specialize (H (after chain_run) (after_reach _)). vm_compute in H. discriminate. Qed.
Print Assumptions inherited_executor_refuted.

(** missing: a continuation that inherits its executor from one that has inherited it too may use objects that have been destroyed *)
Theorem inherited_executor_partial : forall s, reach s ->
  (forall k o, In (ESubmit k o) (hist s) -> belongs (hist s) k o) /\
  (bad s = true -> exists k i j, inherits (hist s) k i /\ inherits (hist s) i j /\ In (EFree j) (hist s)).
Proof. intros s Hr. destruct (reach_ok Hr) as (HI & HC). split; [exact (i_sub HI)|exact HC]. Qed.
Print Assumptions inherited_executor_partial.

(** so nothing goes wrong when executors are inherited once only, or when the futures from which they are inherited are kept *)
Theorem inherited_once_partial : forall s, reach s -> (forall k i j, inherits (hist s) k i -> ~ inherits (hist s) i j) -> bad s = false.
Proof. intros s Hr H. destruct (bad s) eqn:Hb; [|reflexivity]. destruct (proj2 (reach_ok Hr) Hb) as (k & i & j & A & B & _). destruct (H _ _ _ A B). Qed.
Print Assumptions inherited_once_partial.
Theorem inherited_kept_partial : forall s, reach s -> (forall i j, inherits (hist s) i j -> ~ In (EFree j) (hist s)) -> bad s = false.
Proof. intros s Hr H. destruct (bad s) eqn:Hb; [|reflexivity]. destruct (proj2 (reach_ok Hr) Hb) as (k & i & j & _ & B & C). destruct (H _ _ B C). Qed.
Print Assumptions inherited_kept_partial.

(** async(7, f).then(g).then(8, h), one worker of each executor: all three are carried out where they belong *)
Definition good_run : list label :=
  [LAsync 7; LThen 0 None false; LThen 1 (Some 8) false; LRun 0; LFinish 0; LProdGone 0; LRun 1; LArgGone 1; LFree 0; LFinish 1; LProdGone 1; LRun 2; LFinish 2; LArgGone 2; LFree 1].
Lemma good_hist : hist (after good_run) = [EFree 1; EStart 2; ESubmit 2 (Some 8); EFree 0; EStart 1; ESubmit 1 (Some 7); EStart 0; ECreate 2 (OThen 1 (Some 8)); ECreate 1 (OThen 0 None); ESubmit 0 (Some 7); ECreate 0 (OAsync 7)].
Proof. vm_compute. reflexivity. Qed.
Example good_case : bad (after good_run) = false /\ inherits (hist (after good_run)) 1 0 /\ (forall k i j, inherits (hist (after good_run)) k i -> ~ inherits (hist (after good_run)) i j).
Proof.
  rewrite good_hist. split; [vm_compute; reflexivity|]. split.
  - split; [cbn; auto 20|]. exists 7. apply B_async. cbn. auto 20.
  - intros k i j (H & _) (H' & _). cbn in H, H'.
    repeat (destruct H as [H|H]; [try discriminate; injection H as <- <-; repeat (destruct H' as [H'|H']; [discriminate|]); exact H'|]). exact H.
Qed.
(** the same chain as [chain_run] with shared_futures that are kept: the executor is inherited twice and found *)
Definition kept_run : list label :=
  [LAsync 7; LThen 0 None true; LThen 1 None true; LRun 0; LFinish 0; LProdGone 0; LRun 1; LArgGone 1; LFinish 1; LRun 2].
Lemma kept_hist : hist (after kept_run) = [EStart 2; ESubmit 2 (Some 7); EStart 1; ESubmit 1 (Some 7); EStart 0; ECreate 2 (OThen 1 None); ECreate 1 (OThen 0 None); ESubmit 0 (Some 7); ECreate 0 (OAsync 7)].
Proof. vm_compute. reflexivity. Qed.
Example kept_case : inherits (hist (after kept_run)) 2 1 /\ inherits (hist (after kept_run)) 1 0 /\ (forall i j, inherits (hist (after kept_run)) i j -> ~ In (EFree j) (hist (after kept_run))).
Proof.
  rewrite kept_hist. repeat split.
  - cbn. auto 20.
  - exists 7. apply B_inherits with 0; [cbn; auto 20|]. apply B_async. cbn. auto 20.
  - cbn. auto 20.
  - exists 7. apply B_async. cbn. auto 20.
  - intros i j _ H. cbn in H. repeat (destruct H as [H|H]; [discriminate|]). exact H.
Qed.
