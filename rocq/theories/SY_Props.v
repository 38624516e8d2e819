(** * C72: serial_executor_cont *)
From Verif Require Import MonitorLemmas SX_Model SX_Spec SY_Model SY_Proofs.
Set Implicit Arguments.

(** C72, for all schedules, any number of submitting threads and of threads of the underlying executor.  At every moment closures 0 .. m-1 have run one after the
    other, in the order of submission, and at most closure m is running.  Once no thread can take a step, the underlying executor having at least one thread, all accepted
    closures have run, and no call is left waiting.  After close or the destructor has returned, submissions are refused. *)
Theorem serial_cont_order : forall n c, reachable syprog n sy0 tt c ->
  (exists m, m <= yaccepted (hist c) /\ (ylog (sh c) = serial m \/ m < yaccepted (hist c) /\ ylog (sh c) = Beg m :: serial m)) /\
  (quiescent c -> (exists t l cv k, nth_error (thr c) t = Some (Asleep l YExec cv k)) -> ylog (sh c) = serial (yaccepted (hist c))) /\
  (forall t l op cv k, nth_error (thr c) t = Some (Asleep l op cv k) -> op = YExec) /\
  (forall h1 t r h0, hist c = h1 ++ EDone t YSubmit r :: h0 -> forall u op', In (EDone u op' YOk) h0 -> op' = YClose \/ op' = YDestroy -> r = YClosed).
Proof.
  intros n c Hr. destruct (Ord_reachable Hr) as [(ph & m & H1 & H2 & H3) HA]. rewrite <- HA. split; [|split; [|split; [|intros h1 t r h0; eapply refused; eauto]]].
  - destruct H1 as (_ & _ & M & _ & L). destruct ph; try (exists m; split; [lia|auto]; fail). exists (S m). split; [lia|auto].
  - intros Hq (t & l & cv & k & Ht). destruct (Forall_nth_error H2 Ht) as (_ & _ & Hp).
    assert (Z : sumw wk (thr c) = 0).
    { apply sumw_zero. intros x Hx. apply In_nth_error in Hx as [u Hu]. destruct (quiescent_settled Hq Hu) as [(l' & ->)|(l' & op' & cv' & k' & ->)]; auto.
      destruct (Forall_nth_error H2 Hu) as (_ & -> & _). reflexivity. }
    destruct H1 as (_ & _ & M & E & L). destruct ph; cbn in *; try lia; [congruence|rewrite Hp in E; discriminate].
  - intros t l op cv k Ht. destruct (Forall_nth_error H2 Ht) as (H & _). exact H.
Qed.
Print Assumptions serial_cont_order.

Definition cl_ (t : nat) (op : yop) : label yop nat := LCall nat t op.
Definition r_ (t : nat) : label yop nat := LRun yop t [] 0.
Ltac witness n ls := let c := fresh "c" in let E := fresh "E" in
  destruct (run syprog (init yk yop yres ycv n sy0 tt) ls) as [c|] eqn:E; [|vm_compute in E; discriminate]; exists c; split; [exists ls; exact E|]; vm_compute in E; injection E as <-.

(** The documented guarantee of the destructor ("the completion of all the closures happens before the completion of the destructor") is false: it returns while an accepted
    closure has not even begun. *)
Theorem serial_cont_destroy_refuted : exists c, reachable syprog 1 sy0 tt c /\ hist c = [EDone 0 YDestroy YOk; ECall yres 0 YDestroy; EDone 0 YSubmit YOk; ECall yres 0 YSubmit] /\ ylog (sh c) = [].
Proof. witness 1 [cl_ 0 YSubmit; r_ 0; cl_ 0 YDestroy; r_ 0]. split; reflexivity. Qed.
Print Assumptions serial_cont_destroy_refuted.

(** non-vacuity: three closures (one attached while the first runs, one after), two executor threads *)
Example serial_cont_example : exists c, reachable syprog 4 sy0 tt c /\ quiescent c /\ (exists t l cv k, nth_error (thr c) t = Some (Asleep l YExec cv k)) /\ yaccepted (hist c) = 3 /\ ylog (sh c) = serial 3.
Proof.
  witness 4 [cl_ 2 YExec; cl_ 3 YExec; r_ 2; r_ 3; cl_ 0 YSubmit; r_ 0; r_ 2; r_ 3; cl_ 1 YSubmit; r_ 1; r_ 2; r_ 2; r_ 2; r_ 3; r_ 3; r_ 2; r_ 3; r_ 3; cl_ 0 YSubmit; r_ 0; r_ 2; r_ 2; r_ 2; r_ 2; r_ 3].
  split; [reflexivity|]. split; [do 4 eexists; instantiate (4 := 2); reflexivity|]. split; reflexivity.
Qed.
