(** * Theorems about thread::id and joining oneself *)
From Verif Require Import TI_Inv.
Set Implicit Arguments.

(** ** C140 Two ids are equal exactly if they stand for the same thread *)
(** [kept s]: the ids that exist, each with the thread it was obtained for (None: not-any-thread), by get_id() of an object, by
    this_thread::get_id(), or by copying. *)
Definition identifies (s : st) (v : nat) (w : option nat) (v' : nat) (w' : option nat) : Prop :=
  In (v, w) (kept s) -> In (v', w') (kept s) -> (v = v' <-> w = w').

(** Without BOOST_THREAD_PROVIDES_BASIC_THREAD_ID: always. *)
Theorem thread_id_pointer s : reach false s -> forall v w v' w', identifies s v w v' w'.
Proof.
  intros Hr v w v' w' H H'. pose proof (kept_ok Hr _ _ H) as E. pose proof (kept_ok Hr _ _ H') as E'. destruct (exist_ok Hr) as (_ & _ & _ & D).
  split; [|congruence]. intros X. rewrite X in E. destruct w as [t|], w' as [t'|]; auto.
  - f_equal. apply (ref_uniq Hr); [split; [eauto|eauto 6]|split; [eauto|eauto 6]|]. cbn in *. congruence.
  - destruct (nonzero Hr (D _ _ H)). cbn in *. congruence.
  - destruct (nonzero Hr (D _ _ H')). cbn in *. congruence.
Qed.
Print Assumptions thread_id_pointer.
(** By default: as long as each of the threads runs, or has neither been joined nor detached. *)
Theorem thread_id_partial s : reach true s -> forall v w v' w', (forall t, w = Some t -> in_use s t) -> (forall t, w' = Some t -> in_use s t) -> identifies s v w v' w'.
Proof.
  intros Hr v w v' w' A A' H H'. pose proof (kept_ok Hr _ _ H) as E. pose proof (kept_ok Hr _ _ H') as E'. destruct (exist_ok Hr) as (_ & _ & _ & D).
  split; [|congruence]. intros X. rewrite X in E. destruct w as [t|], w' as [t'|]; auto.
  - f_equal. apply (use_uniq Hr); auto. cbn in *. congruence.
  - destruct (nonzero Hr (D _ _ H)). cbn in *. congruence.
  - destruct (nonzero Hr (D _ _ H')). cbn in *. congruence.
Qed.
Print Assumptions thread_id_partial.
(** In both: the id a thread has of itself is that of the object, and the one of not-any-thread is less than all others. *)
Theorem thread_id_same basic s : reach basic s -> forall v v' w, In (v, w) (kept s) -> In (v', w) (kept s) -> v = v'.
Proof. intros Hr v v' w H H'. rewrite (kept_ok Hr _ _ H). symmetry. exact (kept_ok Hr _ _ H'). Qed.
Print Assumptions thread_id_same.
Theorem thread_id_none_least basic s : reach basic s -> forall v v' t, In (v, None) (kept s) -> In (v', Some t) (kept s) -> v < v'.
Proof.
  intros Hr v v' t H H'. rewrite (kept_ok Hr _ _ H), (kept_ok Hr _ _ H'). destruct (exist_ok Hr) as (_ & _ & _ & D).
  destruct (nonzero Hr (D _ _ H')). cbn. unfold value. destruct basic; lia.
Qed.
Print Assumptions thread_id_none_least.

Ltac free := intros t [Ht HR]; cbn in *; unfold upd in *; repeat (destruct t as [|t]; cbn in *; try discriminate; try lia);
  try (destruct HR as [HR|HR]; discriminate).
Tactic Notation "fwd" hyp(R) uconstr(rule) :=
  let H := fresh "R" in
  eassert (H : reach _ _) by (eapply r_step; [exact R|eapply rule; first [exact eq_refl|discriminate|free|match goal with b : bool |- _ => destruct b; first [exact eq_refl|discriminate] end]]); clear R; rename H into R; cbn in R.
(** Thread 1 is joined and its handle is given to thread 2: their ids are equal. *)
Theorem thread_id_refuted : ~ (forall s, reach true s -> forall v w v' w', identifies s v w v' w').
Proof.
  intros H. pose proof (r_init true) as R.
  fwd R (@s_start true _ 0 5 5). fwd R (@s_get_id true _ 0). fwd R (@s_end true _ 1). fwd R (@s_join true _ 0 0 1). fwd R (@s_os true _ 0 0 1). fwd R (@s_joined true _ 0 0 1).
  fwd R (@s_start true _ 0 5 6).
  fwd R (@s_get_id true _ 0).
  pose proof (proj1 (H _ R 5 (Some 2) 5 (Some 1) (or_introl eq_refl) (or_intror (or_introl eq_refl))) eq_refl). discriminate.
Qed.
Print Assumptions thread_id_refuted.
(** Ids of two running threads, one of them also obtained by itself, and of not-any-thread. *)
Example thread_id_case basic : exists s, reach basic s /\ kept s = [(0, None); (7, Some 2); (7, Some 2); (5, Some 1)] /\ in_use s 1 /\ in_use s 2.
Proof.
  pose proof (r_init basic) as R.
  fwd R (@s_start basic _ 0 5 5). fwd R (@s_get_id basic _ 0). fwd R (@s_start basic _ 1 7 7). fwd R (@s_get_id basic _ 1). fwd R (@s_my_id basic _ 2). fwd R (@s_get_id basic _ 3).
  eexists. split; [exact R|]. split; [destruct basic; reflexivity|]. split; (split; [cbn; lia|left; reflexivity]).
Qed.

(** ** C141 join() reports a deadlock exactly when a thread joins itself *)
(** [EDeadlock u w]: join(), called by u on an object that stands for w, throws resource_deadlock_would_occur;
    [EJoins u t]: it waits for t; [EInvalid u w]: it throws invalid_argument. *)
Theorem self_join_waits_for_others basic s : reach basic s -> (forall u t, In (EJoins u t) (hist s) -> u <> t) /\ (forall u w, In (EInvalid u w) (hist s) -> w = None).
Proof. exact (fun Hr => conj (joins_other Hr) (invalid_none Hr)). Qed.
Print Assumptions self_join_waits_for_others.
Theorem self_join_pointer s : reach false s -> forall u w, In (EDeadlock u w) (hist s) -> w = Some u.
Proof. exact (@deadlock_pointer s). Qed.
Print Assumptions self_join_pointer.
(** By default: or when another thread has joined [t] and has not yet left join(). *)
Theorem self_join_partial s : reach true s -> forall u w, In (EDeadlock u w) (hist s) -> exists t, w = Some t /\ (t = u \/ exists v, In (EReaped v t) (hist s)).
Proof. exact (@deadlock_basic s). Qed.
Print Assumptions self_join_partial.
(** Thread 0 is in join() for thread 1 and has called pthread_join; a new thread gets the handle of thread 1, calls join() on
    the same object and is told that it joins itself. *)
Theorem self_join_refuted : ~ (forall s, reach true s -> forall u w, In (EDeadlock u w) (hist s) -> w = Some u).
Proof.
  intros H. pose proof (r_init true) as R.
  fwd R (@s_start true _ 0 5 5). fwd R (@s_end true _ 1). fwd R (@s_join true _ 0 0 1). fwd R (@s_os true _ 0 0 1).
  fwd R (@s_start true _ 1 5 6). fwd R (@s_deadlock true _ 2 0).
  pose proof (H _ R 2 (Some 1) (or_introl eq_refl)). discriminate.
Qed.
Print Assumptions self_join_refuted.
(** A thread that joins itself, one that joins another, one that joins nothing. *)
Example self_join_case basic : exists s, reach basic s /\
  hist s = [EInvalid 0 None; EJoined 0 1; EReaped 0 1; EJoins 0 1; EDeadlock 1 (Some 1); EStarted 1].
Proof.
  pose proof (r_init basic) as R.
  fwd R (@s_start basic _ 0 5 5). fwd R (@s_deadlock basic _ 1 0). fwd R (@s_end basic _ 1). fwd R (@s_join basic _ 0 0 1).
  fwd R (@s_os basic _ 0 0 1). fwd R (@s_joined basic _ 0 0 1). fwd R (@s_invalid basic _ 0 0).
  eexists. split; [exact R|reflexivity].
Qed.
