(** * C159: the control blocks of threads on Windows *)
From Verif Require Import WR_Model WR_Spec WR_Proofs WR_Runs.

(** A control block (with the function object of its thread) is destroyed at most once, and is not used after that. *)
Theorem C159_no_use_after_free : forall s, reach s -> no_use_after_free (log s).
Proof. intros s R. exact (proj1 (wellh_spec _ (i_well _ (INV_reach _ R)))). Qed.
Print Assumptions C159_no_use_after_free.

(** Its destruction sees all that was done to it by any thread. *)
Theorem C159_frees_see : forall s, reach s -> frees_see (log s).
Proof. intros s R. exact (proj1 (proj2 (wellh_spec _ (i_well _ (INV_reach _ R))))). Qed.
Print Assumptions C159_frees_see.

(** It is destroyed only after its thread has ended. *)
Theorem C159_free_after_end : forall s, reach s -> free_after_end (log s).
Proof. intros s R. exact (proj2 (proj2 (wellh_spec _ (i_well _ (INV_reach _ R))))). Qed.
Print Assumptions C159_free_after_end.

(** It does not leak. *)
Theorem C159_no_leak : forall s, reach s -> no_leak s.
Proof. exact never_leaks. Qed.
Print Assumptions C159_no_leak.

(** Ids are equal exactly if they are of the same thread, although addresses are used again. *)
Theorem C159_ids_distinct : forall s, reach s -> ids_distinct s.
Proof. exact distinct. Qed.
Print Assumptions C159_ids_distinct.

(** Cases: the joiner destroys the block, and sees both uses by the two threads; the address of a destroyed block is used again. *)
Example C159_joined : exists s saw, reach s /\ In (EvFree 0 0 saw) (log s) /\ In (EvUse 1 0 1 [0]) (log s) /\ In (EvUse 0 0 2 [0]) (log s) /\
  In (EvEnd 1 0) (log s) /\ ~ In 1 [0] /\ In 1 saw /\ In 2 saw /\ ptrs s = [] /\ dying s = [].
Proof.
  destruct (runs start run_join) as [s|] eqn:E; [|vm_compute in E; discriminate].
  pose proof (runs_reach _ _ _ r_init E) as R. exists s. vm_compute in E. injection E as <-.
  exists [2; 0; 1; 0]. split; [exact R|]. cbn. split; [auto|]. do 3 (split; [auto 8|]). split; [intros [?|[]]; discriminate|]. auto 10.
Qed.
Example C159_reused : exists s, reach s /\ freed 0 (log s) /\ addr s 0 = addr s 2 /\ live s 2 = true /\
  In (Ptr 0 2 KId) (ptrs s) /\ In (Ptr 0 2 KObj) (ptrs s) /\ In (Ptr 7 1 KSelf) (ptrs s) /\ addr s 1 <> addr s 2.
Proof.
  destruct (runs start run_detach) as [s|] eqn:E; [|vm_compute in E; discriminate].
  pose proof (runs_reach _ _ _ r_init E) as R. exists s. vm_compute in E. injection E as <-.
  split; [exact R|]. split; [|cbn; do 5 (split; [auto 8|]); discriminate]. unfold freed. cbn. eauto 8.
Qed.

(** The function object of a thread that has ended and has been joined need not be destroyed: an id keeps it. *)
Theorem C159_gone_with_object_refuted : ~ (forall s, reach s -> gone_with_object s).
Proof.
  intros H. destruct (runs start run_id) as [s|] eqn:E; [|vm_compute in E; discriminate].
  pose proof (runs_reach _ _ _ r_init E) as R. specialize (H s R 1 0). clear R. vm_compute in E. injection E as <-.
  destruct H as (t & saw & F).
  - now left.
  - cbn. intros p [<-|[]] _. reflexivity.
  - reflexivity.
  - cbn in F. repeat (destruct F as [F|F]; [discriminate|]). exact F.
Qed.
Print Assumptions C159_gone_with_object_refuted.

(** It need not be destroyed by the thread itself. *)
Theorem C159_freed_by_itself_refuted : ~ (forall s, reach s -> freed_by_itself (log s)).
Proof.
  intros H. destruct (runs start run_join) as [s|] eqn:E; [|vm_compute in E; discriminate].
  pose proof (runs_reach _ _ _ r_init E) as R. specialize (H s R). clear R. vm_compute in E. injection E as <-.
  assert (K : 0 = 1); [|discriminate]. eapply (H 0 0 _ 0 1); cbn; auto 10.
Qed.
Print Assumptions C159_freed_by_itself_refuted.
