(** * Theorems about the queues when operations on elements throw *)
From Verif Require Import QX_Spec QX_Inv.
Set Implicit Arguments.

(** ** C145 A queue operation that throws leaves the queue as it was *)
(** sync_queue and sync_deque.  A push is all or nothing.  So is a pull, provided that a move of an element that throws does not change its source, and for
    the pull that returns the element provided that the construction of the value returned does not throw (documented as a requirement). *)
Theorem sync_queue_throw_partial : forall (V : Type) (q q' : list V) (o : outcome V),
  (forall t v, sq_push t v q = (q', o) -> push_ok q v q' o) /\
  (forall t v q1, q = v :: q1 -> keeps t v -> sq_pull_ref t q = Some (q', o) -> pull_ok q q' o) /\
  (forall t r v q1, q = v :: q1 -> keeps t v -> throws r = false -> sq_pull_val t r q = Some (q', o) -> pull_ok q q' o).
Proof.
  intros V q q' o. unfold sq_push, sq_pull_ref, sq_pull_val, keeps, pull_ok. split; [|split].
  - intros [|] v; injection 1 as <- <-; reflexivity.
  - intros t v q1 -> Hk. destruct (throws t); injection 1 as <- <-; [rewrite Hk|]; reflexivity.
  - intros t r v q1 -> Hk ->. destruct (throws t); injection 1 as <- <-; [rewrite Hk|]; reflexivity.
Qed.
Print Assumptions sync_queue_throw_partial.

(** sync_bounded_queue: the same, for every capacity and every place of the elements in the array. *)
Theorem bounded_queue_throw_partial : forall (V : Type) (q q' : bq V) (o : outcome V), well_formed q ->
  (forall t v, inc q (in_ q) <> out_ q -> bq_push t v q = (q', o) -> push_ok (contents q) v (contents q') o /\ well_formed q') /\
  (in_ q <> out_ q ->
     (forall t, keeps t (data q (out_ q)) -> bq_pull_ref t q = (q', o) -> pull_ok (contents q) (contents q') o /\ well_formed q') /\
     (forall t r, keeps t (data q (out_ q)) -> throws r = false -> bq_pull_val t r q = (q', o) -> pull_ok (contents q) (contents q') o /\ well_formed q') /\
     (forall a t, keeps t (data q (out_ q)) -> bq_ptr_pull a t q = (q', o) -> pull_ok (contents q) (contents q') o /\ well_formed q')).
Proof.
  intros V q q' o Hw. split; [|intros Hne; split; [|split]].
  - intros t v Hf H. split; [eapply push_good; eauto|eapply push_wf; eauto].
  - intros t Hk H. eapply pull_ref_good; eauto.
  - intros t r Hk Hr H. eapply pull_val_good; eauto.
  - intros [|] t Hk H; [injection H as <- <-; split; [reflexivity|exact Hw]|eapply pull_ref_good; eauto].
Qed.
Print Assumptions bounded_queue_throw_partial.

(** sync_priority_queue: provided that nothing in the heap algorithms throws, and, for pulls, that neither the construction of the value returned nor its
    assignment to the caller's object throws. *)
Theorem priority_queue_throw_partial : forall (V : Type) (q q' : list V) (o : outcome V),
  (forall push_heap t v, Permutation (push_heap (q ++ [v])) (q ++ [v]) -> pq_push push_heap t None v q = (q', o) -> bag_push_ok q v q' o) /\
  (forall pop_heap t r v q1, q = v :: q1 -> keeps t v -> throws r = false -> (forall x l, exists l', pop_heap (x :: l) = l' ++ [x] /\ Permutation l' l) ->
     pq_pull pop_heap t None r q = Some (q', o) \/ pq_pull_ref pop_heap t None r false q = Some (q', o) -> bag_pull_ok q q' o).
Proof.
  intros V q q' o. split.
  - intros h [|] v Hp; unfold pq_push; injection 1 as <- <-; cbn; [reflexivity|]. rewrite Hp. symmetry. apply Permutation_cons_append.
  - intros h t r v q1 -> Hk Hr Hh H.
    assert (E : pq_pull h t None r (v :: q1) = Some (q', o)).
    { destruct H as [H|H]; [exact H|]. unfold pq_pull_ref in H. destruct (pq_pull h t None r (v :: q1)) as [[l [|x|]]|]; exact H. }
    unfold pq_pull in E. rewrite Hr in E. unfold keeps in Hk. destruct (throws t); injection E as <- <-; cbn; [now rewrite Hk|].
    destruct (Hh (left t) q1) as (l' & -> & Hp). rewrite removelast_last. now constructor.
Qed.
Print Assumptions priority_queue_throw_partial.

(** False in full.  sync_priority_queue::push: if a comparison throws, the queue has one element more, whatever push_heap has left. *)
Theorem priority_queue_push_throw_refuted : forall (V : Type) push_heap (c : list V) v q, length c = S (length q) ->
  exists q', pq_push push_heap false (Some c) v q = (q', Threw V) /\ length q' = S (length q).
Proof. intros V h c v q H. exists c. auto. Qed.
Print Assumptions priority_queue_push_throw_refuted.
(** sync_priority_queue::pull(elem), try_pull, ...: if the assignment to elem throws, the element is lost, though no other operation has thrown. *)
Theorem priority_queue_pull_throw_refuted : forall (V : Type) pop_heap (t r : transfer V) v q, throws t = false -> throws r = false ->
  (forall x l, exists l', pop_heap (x :: l) = l' ++ [x] /\ Permutation l' l) ->
  exists q', pq_pull_ref pop_heap t None r true (v :: q) = Some (q', Threw V) /\ Permutation q' q.
Proof.
  intros V h t r v q Ht Hr Hh. unfold pq_pull_ref, pq_pull. rewrite Ht, Hr. destruct (Hh (left t) q) as (l' & -> & Hp). rewrite removelast_last. eauto.
Qed.
Print Assumptions priority_queue_pull_throw_refuted.
(** pull() of sync_queue and sync_bounded_queue: if the construction of the value returned throws, the element is lost. *)
Theorem queue_pull_value_refuted : forall (V : Type) (t r : transfer V), throws t = false -> throws r = true ->
  (forall v q, sq_pull_val t r (v :: q) = Some (q, Threw V)) /\
  (forall q, well_formed q -> in_ q <> out_ q -> exists q', bq_pull_val t r q = (q', Threw V) /\ contents q = data q (out_ q) :: contents q').
Proof.
  intros V t r Ht Hr. unfold sq_pull_val, bq_pull_val. rewrite Ht, Hr. split; [reflexivity|]. intros q Hw Hne. eexists. split; [reflexivity|]. now apply pull_rest.
Qed.
Print Assumptions queue_pull_value_refuted.
(** pull(elem) of sync_queue: an assignment that throws after it has changed its source changes the queue. *)
Theorem queue_pull_move_refuted : ~ (forall (t : transfer nat) q q', sq_pull_ref t q = Some (q', Threw nat) -> q' = q).
Proof. intros H. specialize (H (Transfer true 0) [5; 6] [0; 6] eq_refl). discriminate. Qed.
Print Assumptions queue_pull_move_refuted.

Definition ring : bq nat := BQ (fun i => i * 10) 1 3 4.
Example bounded_queue_case :
  well_formed ring /\ contents ring = [30; 0] /\ inc ring (in_ ring) <> out_ ring /\ in_ ring <> out_ ring /\
  keeps (Transfer true 30) (data ring (out_ ring)) /\
  contents (fst (bq_push (Transfer true 99) 7 ring)) = [30; 0] /\ contents (fst (bq_push (Transfer false 99) 7 ring)) = [30; 0; 7] /\
  contents (fst (bq_pull_ref (Transfer false 99) ring)) = [0].
Proof. repeat split; vm_compute; auto; discriminate. Qed.
Definition to_end (l : list nat) : list nat := match l with [] => [] | x :: l' => l' ++ [x] end.
Example priority_queue_case :
  (forall x l, exists l', to_end (x :: l) = l' ++ [x] /\ Permutation l' l) /\
  pq_pull_ref to_end (Transfer false 0) None (Transfer false 0) true [9; 4; 5] = Some ([4; 5], Threw nat).
Proof. split; [intros x l; exists l; auto|reflexivity]. Qed.

(** ** C146 A call that throws leaves no other call asleep *)
(** sync_queue and sync_deque: whatever throws, a call of pull sleeps only while the queue is empty. *)
Theorem sync_queue_throw_wakes_partial : forall (V : Type) (s : ssys V), sreach (@sq_pushes V) (@sq_pulls V) s -> sleep s <> [] -> elems s = [].
Proof.
  intros V s. apply sreach_asleep. intros q q' (t & v & E). unfold sq_push in E. destruct t; [now injection E|discriminate].
Qed.
Print Assumptions sync_queue_throw_wakes_partial.
(** sync_priority_queue: provided that nothing in the heap algorithms throws. *)
Theorem priority_queue_throw_wakes_partial : forall (V : Type) (s : ssys V), sreach (@pq_pushes V false) (@pq_pulls V false) s -> sleep s <> [] -> elems s = [].
Proof. intros V s. apply sreach_asleep. apply pq_len_threw. Qed.
Print Assumptions priority_queue_throw_wakes_partial.
(** Otherwise a push that has thrown has left an element in the queue, and a call of pull sleeps nevertheless. *)
Theorem priority_queue_throw_wakes_refuted : exists s : ssys nat, sreach (@pq_pushes nat true) (@pq_pulls nat true) s /\ sleep s = [1] /\ woken s = [] /\ elems s = [7].
Proof.
  exists (SSys [7] [1] []). split; [|auto].
  assert (R1 : sreach (@pq_pushes nat true) (@pq_pulls nat true) (SSys [] [1] [])).
  { eapply s_next; [apply s_init|]. apply (@s_pull_wait nat _ _ (ssys0 nat) 1 []); [left; cbn; auto|reflexivity]. }
  eapply s_next; [exact R1|]. apply (@s_push_throws nat _ _ (SSys [] [1] []) 2 [7]).
  - cbn. intros [H|[]]. discriminate.
  - exists (fun l => l), false, (Some [7]), 7. cbn. repeat split; auto. injection H as <-. reflexivity.
Qed.
Print Assumptions priority_queue_throw_wakes_refuted.

(** sync_bounded_queue: each pull that throws can keep one element from the calls that sleep, each push that throws one free place, not more.  In particular, if
    none has thrown then a call sleeps only while the queue is empty, or full. *)
Theorem bounded_queue_throw_wakes_partial : forall (V : Type) cap (s : bsys V), breach cap s -> quiet s ->
  length (items s) <= cap /\
  (sleepE s <> [] -> length (items s) <= thrown (@is_pull_threw V) (hist s)) /\
  (sleepF s <> [] -> cap <= length (items s) + thrown (@is_push_threw V) (hist s)).
Proof.
  intros V cap s Hr (A & B & C & D). destruct (breach_inv Hr) as [[E1 E2] [F0 [F1 F2]]]. rewrite A, B, C, D in *. cbn in *. repeat split; [exact F0| |].
  - destruct (sleepE s); [congruence|cbn in *; lia].
  - destruct (sleepF s); [congruence|cbn in *; lia].
Qed.
Print Assumptions bounded_queue_throw_wakes_partial.

Ltac newcall := apply calls; [unfold idle; cbn; intuition discriminate|reflexivity].
(** Two calls of pull sleep; a push wakes one; its assignment throws.  The element stays in the queue, and the other call sleeps on. *)
Theorem bounded_queue_throw_wakes_refuted : exists s : bsys nat, breach 3 s /\ quiet s /\ sleepE s = [1] /\ items s = [7].
Proof.
  exists (BSys [7] 1 0 [1] [] [] [] [] [] [EPullThrew nat 2; EPushed 3 7]). split; [|repeat split; reflexivity].
  assert (R1 : breach 3 (BSys (V := nat) [] 1 0 [1] [] [] [] [] [] [])).
  { eapply b_next; [apply b_init|]. apply (@b_pull_wait nat 3 (bsys0 nat) 1 []); [newcall|reflexivity]. }
  assert (R2 : breach 3 (BSys (V := nat) [] 2 0 [2; 1] [] [] [] [] [] [])).
  { eapply b_next; [exact R1|]. apply (@b_pull_wait nat 3 (BSys [] 1 0 [1] [] [] [] [] [] []) 2 []); [newcall|reflexivity]. }
  assert (R3 : breach 3 (BSys [7] 1 0 [2; 1] [] [] [] [3] [] [EPushed 3 7])).
  { eapply b_next; [exact R2|]. apply (@b_push nat 3 (BSys [] 2 0 [2; 1] [] [] [] [] [] []) 3 [] 7); [newcall|cbn; lia]. }
  assert (R4 : breach 3 (BSys [7] 1 0 [1] [] [2] [] [] [] [EPushed 3 7])).
  { eapply b_next; [exact R3|]. apply (@b_notifyE nat 3 (BSys [7] 1 0 [2; 1] [] [] [] [3] [] [EPushed 3 7]) 3 [] [] 2 [] [1]); reflexivity. }
  eapply b_next; [exact R4|]. apply (@b_pull_throws nat 3 (BSys [7] 1 0 [1] [] [2] [] [] [] [EPushed 3 7]) 2 [] 7 [] 7); [|reflexivity].
  apply (@wakes nat _ 2 _ _ [] []); reflexivity.
Qed.
Print Assumptions bounded_queue_throw_wakes_refuted.
(** The same for calls of push: with room for one element, two pushes sleep, a pull wakes one, its assignment throws. *)
Theorem bounded_queue_push_throw_wakes_refuted : exists s : bsys nat, breach 1 s /\ quiet s /\ sleepF s = [1] /\ items s = [].
Proof.
  exists (BSys [] 0 1 [] [1] [] [] [] [] [EPushThrew nat 2; EPulled 3 7; EPushed 3 7]). split; [|repeat split; reflexivity].
  assert (R1 : breach 1 (BSys [7] 0 0 [] [] [] [] [] [] [EPushed 3 7])).
  { eapply b_next; [apply b_init|]. apply (@b_push nat 1 (bsys0 nat) 3 [] 7); [newcall|cbn; lia]. }
  assert (R2 : breach 1 (BSys [7] 0 1 [] [1] [] [] [] [] [EPushed 3 7])).
  { eapply b_next; [exact R1|]. apply (@b_push_wait nat 1 (BSys [7] 0 0 [] [] [] [] [] [] [EPushed 3 7]) 1 []); [newcall|reflexivity]. }
  assert (R3 : breach 1 (BSys [7] 0 2 [] [2; 1] [] [] [] [] [EPushed 3 7])).
  { eapply b_next; [exact R2|]. apply (@b_push_wait nat 1 (BSys [7] 0 1 [] [1] [] [] [] [] [EPushed 3 7]) 2 []); [newcall|reflexivity]. }
  assert (R4 : breach 1 (BSys [] 0 1 [] [2; 1] [] [] [] [3] [EPulled 3 7; EPushed 3 7])).
  { eapply b_next; [exact R3|]. apply (@b_pull nat 1 (BSys [7] 0 2 [] [2; 1] [] [] [] [] [EPushed 3 7]) 3 [] 7 []); [newcall|reflexivity]. }
  assert (R5 : breach 1 (BSys [] 0 1 [] [1] [] [2] [] [] [EPulled 3 7; EPushed 3 7])).
  { eapply b_next; [exact R4|]. apply (@b_notifyF nat 1 (BSys [] 0 1 [] [2; 1] [] [] [] [3] [EPulled 3 7; EPushed 3 7]) 3 [] [] 2 [] [1]); reflexivity. }
  eapply b_next; [exact R5|]. apply (@b_push_throws nat 1 (BSys [] 0 1 [] [1] [] [2] [] [] [EPulled 3 7; EPushed 3 7]) 2 []); [|cbn; lia].
  apply (@wakes nat _ 2 _ _ [] []); reflexivity.
Qed.
Print Assumptions bounded_queue_push_throw_wakes_refuted.
(** A pull sleeps in an empty sync_queue, after a push has thrown *)
Example sync_queue_wakes_case : exists s : ssys nat, sreach (@sq_pushes nat) (@sq_pulls nat) s /\ sleep s = [1].
Proof.
  exists (SSys [] [1] []). split; [|reflexivity].
  assert (R1 : sreach (@sq_pushes nat) (@sq_pulls nat) (SSys [] [1] [])).
  { eapply s_next; [apply s_init|]. apply (@s_pull_wait nat _ _ (ssys0 nat) 1 []); [left; cbn; auto|reflexivity]. }
  eapply s_next; [exact R1|]. apply (@s_push_throws nat _ _ (SSys [] [1] []) 2 []).
  - cbn. intros [H|[]]. discriminate.
  - exists true, 7. reflexivity.
Qed.
