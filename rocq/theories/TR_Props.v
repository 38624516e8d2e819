(** * Theorems: task regions (C92-C95) *)
From Verif Require Import TR_Model TR_Spec TR_Proofs.

(** ** C92: task_region returns after all its tasks, and theirs, have ended; nothing ends twice *)
Theorem C92_join : forall cap b c h2 i l h1, reach cap b c -> hist c = h2 ++ Returned i l :: h1 ->
  (forall k, descendant (hist c) i k -> result k h1 <> None) /\ (forall k, ~ In (Spawned i k) h2) /\ (forall l', ~ In (Returned i l') (h2 ++ h1)).
Proof.
  intros cap b c h2 i l h1 Hr E. pose proof (i_good (reach_inv Hr)) as Hg. rewrite E in *.
  split; [intros k Hk; exact (good_descendants _ _ _ Hg Hk)|]. split; [exact (good_over _ _ _ _ Hg)|exact (good_once _ _ _ _ Hg)].
Qed.
Print Assumptions C92_join.

(** ** C93: the exceptions of a region *)
(** [l] are the exceptions in the list that task_region throws; [] when it returns normally.  Without wait: exactly those of the body and of the tasks. *)
Theorem C93_exceptions_partial : forall cap b c h2 i l h1 body, reach cap b c -> hist c = h2 ++ Returned i l :: h1 -> entered i h1 = Some body ->
  nowait body -> l = raised i h1.
Proof.
  intros cap b c h2 i l h1 body Hr E He Hn. pose proof (i_good (reach_inv Hr)) as Hg. rewrite E in Hg. apply good_app in Hg. destruct Hg as (_ & _ & H). now apply (H body He).
Qed.
Print Assumptions C93_exceptions_partial.
(** In general: none is lost and none is invented. *)
Theorem C93_no_exception_lost : forall cap b c h2 i l h1, reach cap b c -> hist c = h2 ++ Returned i l :: h1 -> entered i h1 <> None ->
  forall n, In n l <-> In n (raised i h1).
Proof.
  intros cap b c h2 i l h1 Hr E He. pose proof (i_good (reach_inv Hr)) as Hg. rewrite E in Hg. apply good_app in Hg. destruct Hg as (_ & _ & H).
  destruct (entered i h1) as [body|] eqn:Eb; [|congruence]. destruct (H body Eb) as (_ & Hn & _). exact Hn.
Qed.
Print Assumptions C93_no_exception_lost.
(** With wait an exception is reported several times: one task that fails once, a list with the exception three times. *)
Definition twice : list cmd := [Run (Plain (Some 7)); Wait false].
Theorem C93_reported_once_refuted : exists c h1, reach None twice c /\ hist c = Returned 0 [7; 7; 7] :: h1 /\ raised 0 h1 = [7].
Proof.
  destruct (runs None (init twice) [0; 0; 1; 1; 1; 0; 0; 0]) as [c|] eqn:E; [|vm_compute in E; discriminate].
  exists c. eexists. split; [exact (runs_reach _ (reach_init _ _) E)|]. vm_compute in E. injection E as <-. split; reflexivity.
Qed.
Print Assumptions C93_reported_once_refuted.

Definition nested_ex : list cmd := [Run (Plain (Some 1)); Run (Nested [Run (Plain (Some 2)); Throw 3]); Throw 4].
Example C93_case : exists c h1, reach None nested_ex c /\ hist c = Returned 0 [4; 1; 3; 2] :: h1 /\ nowait nested_ex /\ raised 0 h1 = [4; 1; 3; 2] /\ entered 0 h1 = Some nested_ex /\ children 0 h1 = [1; 2] /\ descendant h1 0 3.
Proof.
  destruct (runs None (init nested_ex) [0; 0; 0; 2; 2; 3; 2; 1; 1; 1; 3; 3; 2; 2; 0; 0]) as [c|] eqn:E; [|vm_compute in E; discriminate].
  exists c. eexists. split; [exact (runs_reach _ (reach_init _ _) E)|]. vm_compute in E. injection E as <-. split; [reflexivity|]. split; [repeat constructor|].
  repeat split. apply desc_step with (j := 2); [apply desc_child|]; cbn; auto.
Qed.

(** ** C94: after a task has failed no other is started in its region *)
Theorem C94_cancellation : forall cap b c h2 p k h1, reach cap b c -> hist c = h2 ++ Spawned p k :: h1 ->
  forall k' l, In k' (children p h1) -> result k' h1 = Some l -> l = [].
Proof.
  intros cap b c h2 p k h1 Hr E. pose proof (i_good (reach_inv Hr)) as Hg. rewrite E in Hg. apply good_app in Hg. destruct Hg as (_ & _ & _ & H). exact H.
Qed.
Print Assumptions C94_cancellation.
Example C94_case : exists c, reach None nested_ex c /\ hist c = [Spawned 0 2; Spawned 0 1; Entered 0 nested_ex].
Proof.
  destruct (runs None (init nested_ex) [0; 0]) as [c|] eqn:E; [|vm_compute in E; discriminate].
  exists c. split; [exact (runs_reach _ (reach_init _ _) E)|]. vm_compute in E. injection E as <-. reflexivity.
Qed.

(** ** C95: task_region returns *)
(** Every execution ends after a number of steps that depends on the program only. *)
Theorem C95_bounded : forall cap b is c, runs cap (init b) is = Some c -> length is <= 4 + bsize b.
Proof. intros cap b is c H. pose proof (runs_total _ _ _ H) as Ht. cbn in Ht. lia. Qed.
Print Assumptions C95_bounded.
(** With a thread or a pool for every region it ends only when the outermost call has returned and all tasks have ended. *)
Theorem C95_returns : forall b c, reach None b c -> (forall i, step None c i = None) -> result 0 (hist c) <> None /\ forall k, In k (children 0 (hist c)) -> result k (hist c) <> None.
Proof.
  intros b c Hr Hs. pose proof (reach_inv Hr) as H. pose proof (unlimited_progress H Hs) as Hall.
  assert (G : forall i t, nth_error (tasks c) i = Some t -> result i (hist c) <> None).
  { intros i [p x] Hi. pose proof (proj1 (Forall_forall _ _) Hall _ (nth_error_In _ _ Hi)) as [l El]. cbn in El. subst x. pose proof (i_local H i Hi) as Hl. cbn in Hl. congruence. }
  split.
  - destruct (nth_error (tasks c) 0) as [t|] eqn:E0; [exact (G 0 t E0)|]. exfalso. clear -Hr E0. induction Hr as [|c c' i Hc IH Hs]; [discriminate|].
    apply IH. apply nth_error_None in E0. apply nth_error_None. pose proof (step_length _ _ _ Hs). lia.
  - intros k Hk. destruct (i_child H 0 k Hk) as (x & Hx & _). exact (G k _ Hx).
Qed.
Print Assumptions C95_returns.
(** The same with one pool for all, if the tasks have no regions of their own. *)
Theorem C95_pool_returns_partial : forall n b c, flat b -> 0 < n -> reach (Some n) b c -> (forall i, step (Some n) c i = None) -> result 0 (hist c) <> None.
Proof.
  intros n b c Hf Hn Hr Hs. pose proof (reach_inv Hr) as H. pose proof (pool_progress Hf Hn Hr Hs) as Hall.
  destruct (nth_error (tasks c) 0) as [[p x]|] eqn:E0.
  - pose proof (proj1 (Forall_forall _ _) Hall _ (nth_error_In _ _ E0)) as [l El]. cbn in El. subst x. pose proof (i_local H 0 E0) as Hl. cbn in Hl. congruence.
  - exfalso. clear -Hr E0. induction Hr as [|c c' i Hc IH Hs]; [discriminate|]. apply IH. apply nth_error_None in E0. apply nth_error_None. pose proof (step_length _ _ _ Hs). lia.
Qed.
Print Assumptions C95_pool_returns_partial.
(** A task that uses a region of its own on the same pool: the workers wait for tasks that nobody is left to run. *)
Definition deep : list cmd := [Run (Nested [Run (Plain None)])].
Theorem C95_nested_pool_refuted : exists c, reach (Some 1) deep c /\ (forall i, step (Some 1) c i = None) /\ result 0 (hist c) = None.
Proof.
  destruct (runs (Some 1) (init deep) [0; 0; 1; 1; 1]) as [c|] eqn:E; [|vm_compute in E; discriminate].
  exists c. split; [exact (runs_reach _ (reach_init _ _) E)|]. vm_compute in E. injection E as <-. split; [|reflexivity].
  intros [|[|[|i]]]; try reflexivity. unfold step. cbn [tasks]. destruct i; reflexivity.
Qed.
Print Assumptions C95_nested_pool_refuted.
Example C95_case : exists c, reach None nested_ex c /\ (forall i, step None c i = None) /\ result 0 (hist c) = Some [4; 1; 3; 2] /\ flat twice.
Proof.
  destruct (runs None (init nested_ex) [0; 0; 0; 2; 2; 3; 2; 1; 1; 1; 3; 3; 2; 2; 0; 0]) as [c|] eqn:E; [|vm_compute in E; discriminate].
  exists c. split; [exact (runs_reach _ (reach_init _ _) E)|]. vm_compute in E. injection E as <-. split; [|split; [reflexivity|repeat constructor]].
  intros [|[|[|[|i]]]]; try reflexivity. unfold step. cbn [tasks]. destruct i; reflexivity.
Qed.
