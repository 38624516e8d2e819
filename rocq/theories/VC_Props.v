(** * Theorems about arguments *)
From Coq Require Import List Arith Lia.
From Verif Require Import VC_Spec VC_Proofs.
Import ListNotations.
Set Implicit Arguments.

(** ** C148 *)
(** Passed as lvalues to any of the other functions, the objects of a program keep their values, and every call delivers an object of its own with the value. *)
Theorem lvalue_arguments_copied_partial : forall V (h : heap V) l h' rs, runs h l h' rs ->
  (forall c x k, In (c, x, k) l -> careless c k = false /\ x < length h /\ content h x <> None) ->
  (forall y, y < length h -> content h' y = content h y) /\
  Forall2 (fun a r => let '(c, x, _) := a in length h <= r /\ exists v, content h x = Some v /\ content h' r = Some (due c v)) l rs /\ NoDup rs.
Proof.
  intros V h l h' rs Hr Hl. destruct (runs_ok Hr Hl) as (_ & A & B & C). split; [exact A|]. split; [|exact C].
  clear -B. induction B as [|[[c x] k] r l rs (L & E) B IH]; constructor; [split; [lia|exact E]|exact IH].
Qed.
Print Assumptions lvalue_arguments_copied_partial.
Example lvalue_program : exists h', runs [Some 5; Some 7] [(PoolSubmit nat, 0, false); (PoolSubmit nat, 0, false); (GetOr (Some 3), 1, true); (SetValue nat, 1, true)] h' [3; 5; 6; 7] /\
  content h' 0 = Some 5 /\ content h' 3 = Some 5 /\ content h' 5 = Some 5 /\ content h' 6 = Some 3 /\ content h' 7 = Some 7.
Proof. eexists. split; [repeat (econstructor; [vm_compute; reflexivity|]); constructor|repeat split]. Qed.
(** One call: exactly the others copy. *)
Theorem lvalue_argument_copied_iff_partial : forall V (v0 : V) (c : call V) k, copies c k <-> careless c k = false.
Proof.
  intros V v0 c k. split; [|apply copies_ok]. intros Hc. destruct (careless c k) eqn:E; [exfalso|reflexivity].
  destruct c as [[st|]|[st|]| | | | | | | | | | | | | | | | ], k; try discriminate E.
  - destruct (Hc [Some v0] 0 v0 _ _ (le_n 1) eq_refl eq_refl) as (_ & _ & H). discriminate (H 0 (le_n 1)).
  - destruct (Hc [Some v0] 0 v0 _ _ (le_n 1) eq_refl eq_refl) as (_ & _ & H). discriminate (H 0 (le_n 1)).
  - destruct (Hc [Some v0] 0 v0 _ _ (le_n 1) eq_refl eq_refl) as (_ & _ & H). discriminate (H 0 (le_n 1)).
  - destruct (Hc [Some v0] 0 v0 _ _ (le_n 1) eq_refl eq_refl) as (_ & _ & H). discriminate (H 0 (le_n 1)).
  - destruct (Hc [Some v0] 0 v0 _ _ (le_n 1) eq_refl eq_refl) as (_ & _ & H). discriminate (H 0 (le_n 1)).
  - destruct (Hc [Some v0] 0 v0 _ _ (le_n 1) eq_refl eq_refl) as (H & _). cbn in H. lia.
Qed.
Print Assumptions lvalue_argument_copied_iff_partial.
(** The same closure submitted twice to a user_scheduler, or twice through a scheduler's on(ex): the second one is the moved-from object; get_or and fallback_to empty
    their argument. *)
Theorem lvalue_arguments_copied_refuted : ~ (forall V (c : call V) k, copies c k).
Proof. intros H. pose proof (proj1 (lvalue_argument_copied_iff_partial 0 (UserSchedulerSubmit nat) false) (H _ _ _)) as E. discriminate E. Qed.
Print Assumptions lvalue_arguments_copied_refuted.
Theorem lvalue_twice_refuted : forall c, In c [UserSchedulerSubmit nat; SchedulerOnSubmit nat; GetOr None; FallbackTo None] ->
  exists h' r1 r2, runs [Some 5] [(c, 0, false); (c, 0, false)] h' [r1; r2] /\ content h' r1 = Some 5 /\ content h' r2 = None.
Proof.
  intros c Hc. destruct Hc as [<-|[<-|[<-|[<-|[]]]]]; eexists _, _, _; (split; [repeat (econstructor; [vm_compute; reflexivity|]); constructor|split; reflexivity]).
Qed.
Print Assumptions lvalue_twice_refuted.
(** An rvalue is delivered by every function, and no other object changes. *)
Theorem rvalue_arguments_taken : forall V (c : call V), takes c.
Proof. exact takes_ok. Qed.
Print Assumptions rvalue_arguments_taken.
(** Also the functions that spoil their argument deliver its value. *)
Theorem arguments_delivered : forall V (c : call V), delivers c.
Proof. exact delivers_ok. Qed.
Print Assumptions arguments_delivered.
Example rvalue_submit : exists h' r, perform (SchedulerOnSubmit nat) (Expr 1 false XV) [Some 5; Some 7] = Some (h', r) /\ content h' r = Some 7 /\ content h' 0 = Some 5 /\ content h' 1 = None.
Proof. eexists _, _. repeat split. Qed.
(** call_once with two arguments, without variadic templates *)
Theorem once_args_delivered : forall V (h : heap V) e1 e2 v1 v2 h' r1 r2, obj e1 < length h -> obj e2 < length h -> obj e1 <> obj e2 ->
  content h (obj e1) = Some v1 -> content h (obj e2) = Some v2 -> once_args e1 e2 h = Some (h', (r1, r2)) ->
  content h' r1 = Some v1 /\ content h' r2 = Some v2 /\ length h <= r1 < r2.
Proof.
  intros V h [x1 k1 t1] [x2 k2 t2] v1 v2 h' r1 r2 L1 L2 Hn E1 E2 H. cbn in L1, L2, Hn, E1, E2.
  destruct t1, t2, k1, k2; unfold once_args in H; runit H; injection H as <- <- <-; (split; [look; exact E1|split; [look; exact E2|len]]).
Qed.
Print Assumptions once_args_delivered.
Theorem once_args_copied_partial : forall V (h : heap V) x1 x2 k1 k2 h' r, x1 < length h -> x2 < length h -> once_args (Expr x1 k1 LV) (Expr x2 k2 LV) h = Some (h', r) ->
  forall y, y < length h -> content h' y = content h y.
Proof. intros V h x1 x2 k1 k2 h' r L1 L2 H y Hy. destruct k1, k2; unfold once_args in H; runit H; injection H as <- <-; look; reflexivity. Qed.
Print Assumptions once_args_copied_partial.
(** An lvalue after an rvalue is moved from. *)
Theorem once_args_copied_refuted : exists h' r1 r2, once_args (Expr 0 false XV) (Expr 1 false LV) [Some 5; Some 7] = Some (h', (r1, r2)) /\ content h' r2 = Some 7 /\ content h' 1 = None.
Proof. eexists _, _, _. repeat split. Qed.
Print Assumptions once_args_copied_refuted.

(** ** C149 *)
(** The compiler accepts every argument, except: an lvalue or a const rvalue for then; a non-const lvalue or a const rvalue for task_region_handle::run; a const rvalue
    for fallback_to. *)
Theorem arguments_accepted_partial : forall V (c : call V) k t,
  accepts c k t <->
  match c, k, t with
  | Then _, false, XV => True | Then _, _, _ => False
  | TaskRun _, false, LV => False | TaskRun _, true, XV => False
  | FallbackTo _, true, XV => False
  | _, _, _ => True
  end.
Proof.
  intros V c k t. split.
  - intros H. destruct c as [st|[st|]| | | | | | | | | | | | | | | | ], k, t; try exact I; destruct (H [] 0) as (h' & r & E); discriminate E.
  - intros H h x. destruct c as [[st|]|[st|]| | | | | | | | | | | | | | | | ], k, t; try contradiction H; eexists _, _; cbn; reflexivity.
Qed.
Print Assumptions arguments_accepted_partial.
Theorem arguments_accepted_refuted : ~ (forall V (c : call V) k, accepts c k LV).
Proof. intros H. apply (proj1 (arguments_accepted_partial (Then nat) false LV)). apply H. Qed.
Print Assumptions arguments_accepted_refuted.
