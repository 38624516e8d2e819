(** * Properties C83, C84, C85 and C86: async

    Model: AS_Model.v; specification: AS_Spec.v.  [waits] is the configuration (see AS_Model.v), [n] the number of client threads. *)
From Verif Require Import AS_Model AS_Spec AS_Proofs.
Import ListNotations.

(** ** C83 *)

(** The function never runs twice, and a wait returns only the outcome of the function, after the function has ended. *)
Theorem C83_once_and_result : forall waits n c, reachable waits n c ->
  starts (hist c) <= 1 /\
  (forall h1 i r h2, hist c = h1 ++ EGot i r :: h2 -> In (EEnd r) h2) /\
  (forall r r', In (EEnd r) (hist c) -> In (EEnd r') (hist c) -> r = r').
Proof.
  intros waits n c Hr. pose proof (Inv_reachable _ _ _ Hr) as HI. split; [|split].
  - rewrite (j1 _ HI). destruct (wk c); cbn; lia.
  - intros h1 i r h2. exact (hok_got _ (j5 _ HI) h1 i r h2).
  - exact (j8 _ HI).
Qed.
Print Assumptions C83_once_and_result.

(** Once async has returned, its thread needs at most six steps; then the function has run and ended, and nobody who waits is blocked. *)
Theorem C83_completes : forall waits n c i r, reachable waits n c -> In (EReturn i) (hist c) ->
  exists k c', k <= 6 /\ run waits c (repeat (LWork r) k) = Some c' /\ worker_idle waits c' /\
    starts (hist c') = 1 /\ (exists r', In (EEnd r') (hist c')) /\
    forall j, waiting c' j -> exists r' c'', step waits (LGot j) c' = Some c'' /\ hist c'' = EGot j r' :: hist c'.
Proof.
  intros waits n c i r Hr Hin. destruct (worker_ends _ _ _ r Hr) as (k & c' & Hk & Hrun & Hid & Hr').
  exists k, c'. split; [exact Hk|]. split; [exact Hrun|]. split; [exact Hid|].
  assert (Hin' : In (EReturn i) (hist c')).
  { clear - Hin Hrun. revert c Hin Hrun. induction k as [|k IH]; intros c Hin Hrun; cbn in Hrun; [injection Hrun as <-; exact Hin|].
    destruct (work_step waits r c) as [d|] eqn:E; [|discriminate]. apply (IH d); [|exact Hrun].
    unfold work_step in E. destruct (wk c); try discriminate; try (injection E as <-; cbn; auto; fail).
    - destruct (refs c =? 1); injection E as <-; exact Hin.
    - destruct (dtor_ready waits c); [|discriminate]. injection E as <-. cbn. auto. }
  destruct (returned_done _ _ _ _ Hr' Hin' Hid) as (H1 & r' & H2 & _). split; [exact H1|]. split; [eauto|].
  intros j Hj. exact (wait_enabled _ _ _ _ Hr' Hid Hj).
Qed.
Print Assumptions C83_completes.

(** The shared state is never used after its destruction, is destroyed at most once, never while a future refers to it or while the function
    may still run, and it is destroyed once nobody refers to it. *)
Theorem C83_lifetime : forall waits n c, reachable waits n c ->
  bad c = false /\ frees (hist c) <= 1 /\
  (In EFree (hist c) -> 0 < starts (hist c) -> ended (hist c)) /\
  (frees (hist c) = 1 -> handles c = 0) /\
  (called c = true -> handles c = 0 -> at_rest c -> worker_idle waits c -> frees (hist c) = 1).
Proof.
  intros waits n c Hr. destruct (lifetime _ _ _ Hr) as (H1 & H2 & H3). split; [exact H1|]. split; [exact H2|].
  split; [exact (free_after_end _ _ _ Hr)|]. split; [intros H; apply (H3 H)|]. exact (all_gone _ _ _ Hr).
Qed.
Print Assumptions C83_lifetime.

Definition after_run (waits : bool) (n : nat) (ls : list label) : as_ := match run waits (as0 n) ls with Some c => c | None => as0 n end.
Lemma after_reachable waits n ls : run waits (as0 n) ls <> None -> reachable waits n (after_run waits n ls).
Proof. intros H. exists ls. unfold after_run. destruct (run waits (as0 n) ls); [reflexivity|congruence]. Qed.

(** two clients share the future; one waits, then both drop it *)
Definition case_run : list label :=
  [LAsync 0; LSpawn 0; LReturn 0; LCopy 0 1; LWait 1; LWork (RVal 5); LDrop 0; LWork (RVal 5); LWork (RVal 5); LGot 1; LWork (RVal 5); LDrop 1; LDestroy 1].
Example C83_case : let c := after_run true 2 case_run in
  reachable true 2 c /\ hist c = [EGone 1; EFree; EGot 1 (RVal 5); EEnd (RVal 5); EGone 0; EStart; EReturn 0] /\ at_rest c /\ handles c = 0.
Proof.
  cbv zeta. split; [apply after_reachable; vm_compute; discriminate|]. vm_compute. repeat constructor.
Qed.

(** ** C84 *)

(** What the documentation says of these futures (doc/future_ref.qbk:961, 1452): the destructor of the last one blocks until the function has ended. *)
Definition C84_destructor_blocks (waits : bool) : Prop := forall n c l c' i,
  reachable waits n c -> step waits l c = Some c' -> hd_error (hist c') = Some (EGone i) -> hist c' <> hist c -> handles c' = 0 -> ended (hist c').

(** It does not, in any configuration: the running thread owns the state too. *)
Theorem C84_destructor_blocks_refuted : forall waits, ~ C84_destructor_blocks waits.
Proof.
  intros waits H.
  pose (ls := [LAsync 0; LSpawn 0; LReturn 0; LWork (RVal 5)]).
  assert (Hr : reachable waits 1 (after_run waits 1 ls)) by (apply after_reachable; destruct waits; vm_compute; discriminate).
  destruct (step waits (LDrop 0) (after_run waits 1 ls)) as [c'|] eqn:E; [|destruct waits; vm_compute in E; discriminate].
  assert (G : hd_error (hist c') = Some (EGone 0) /\ hist c' <> hist (after_run waits 1 ls) /\ handles c' = 0 /\ ~ ended (hist c')).
  { destruct waits; vm_compute in E; injection E as <-; vm_compute;
      (split; [reflexivity|]; split; [discriminate|]; split; [reflexivity|]; intros [r [Hx|[Hx|[Hx|[]]]]]; discriminate). }
  destruct G as (G1 & G2 & G3 & G4). apply G4. exact (H 1 _ (LDrop 0) c' 0 Hr E G1 G2 G3).
Qed.
Print Assumptions C84_destructor_blocks_refuted.

(** What holds: a client that destroys the state by dropping the last future does so after the function has ended, so its destructor always returns. *)
Theorem C84_state_outlives_function_partial : forall waits n c i o,
  reachable waits n c -> nth_error (cls c) i = Some (MkC o (Destroying false)) ->
  ended (hist c) /\ exists c', step waits (LDestroy i) c = Some c' /\ hist c' = EGone i :: EFree :: hist c.
Proof. exact drop_never_blocks. Qed.
Print Assumptions C84_state_outlives_function_partial.

Example C84_case : exists o, nth_error (cls (after_run true 2 (removelast case_run))) 1 = Some (MkC o (Destroying false)).
Proof. exists 0. vm_compute. reflexivity. Qed.

(** ** C85 *)

(** async throws when its thread cannot be started: once that has happened, the call can go on to throw. *)
Definition C85_failure_throws (waits : bool) : Prop := forall n c i, reachable waits n c -> failing c i ->
  exists ls c', run waits c ls = Some c' /\ In (EThrow i) (hist c').

(** In the configuration with the waiting destructor it hangs: nothing can happen any more. *)
Theorem C85_failure_throws_refuted : ~ C85_failure_throws true.
Proof.
  intros H. pose (ls := [LAsync 0; LFail 0]).
  assert (Hr : reachable true 1 (after_run true 1 ls)) by (apply after_reachable; vm_compute; discriminate).
  assert (Hf : failing (after_run true 1 ls) 0) by (exists 0; vm_compute; reflexivity).
  destruct (H 1 _ 0 Hr Hf) as (ls' & c' & Hrun & Hin).
  destruct ls' as [|l ls']; cbn [run] in Hrun.
  - injection Hrun as <-. vm_compute in Hin. exact Hin.
  - rewrite (failing_stuck _ _ _ Hr Hf l) in Hrun. discriminate.
Qed.
Print Assumptions C85_failure_throws_refuted.

Theorem C85_failure_hangs : forall n c i, reachable true n c -> failing c i -> forall l, step true l c = None.
Proof. exact failing_stuck. Qed.
Print Assumptions C85_failure_hangs.

(** In the other configurations the call throws, the function has not been started, and the state is destroyed. *)
Theorem C85_failure_throws_partial : forall n c i, reachable false n c -> failing c i ->
  starts (hist c) = 0 /\ exists c', step false (LDestroy i) c = Some c' /\ hist c' = EThrow i :: EFree :: hist c /\ frees (hist c') = 1.
Proof. exact failing_throws. Qed.
Print Assumptions C85_failure_throws_partial.

Example C85_case : reachable false 1 (after_run false 1 [LAsync 0; LFail 0]) /\ failing (after_run false 1 [LAsync 0; LFail 0]) 0.
Proof. split; [apply after_reachable; vm_compute; discriminate|exists 0; reflexivity]. Qed.

(** ** C86 *)

(** A policy with the bit of launch::async starts a thread; one with only that of launch::deferred stores the function. *)
Definition C86_policy_honoured (variadic : bool) : Prop := forall policy,
  (Nat.testbit policy 0 = true -> async_launch variadic policy = NewThread) /\
  (Nat.testbit policy 0 = false -> Nat.testbit policy 1 = true -> async_launch variadic policy = DeferredFunction).

Lemma land_bit p i : (Nat.land p (2 ^ i) =? 0) = negb (Nat.testbit p i).
Proof.
  destruct (Nat.testbit p i) eqn:E.
  - apply Nat.eqb_neq. intros H. assert (X : Nat.testbit (Nat.land p (2 ^ i)) i = true) by (rewrite Nat.land_spec, E, Nat.pow2_bits_true; reflexivity).
    rewrite H, Nat.bits_0 in X. discriminate.
  - apply Nat.eqb_eq. apply Nat.bits_inj. intros j. rewrite Nat.land_spec, Nat.bits_0. destruct (Nat.eq_dec j i) as [->|Hne].
    + rewrite E. reflexivity.
    + rewrite Nat.pow2_bits_false by auto. apply andb_false_r.
Qed.

Theorem C86_policy_honoured_refuted : ~ C86_policy_honoured false.
Proof. intros H. destruct (H launch_deferred) as [_ H2]. specialize (H2 eq_refl eq_refl). discriminate H2. Qed.
Print Assumptions C86_policy_honoured_refuted.

Theorem C86_policy_honoured_partial : C86_policy_honoured true /\
  (forall policy, Nat.testbit policy 0 = true -> async_launch false policy = NewThread) /\
  async_launch false launch_any = NewThread /\ async_launch true launch_any = NewThread.
Proof.
  assert (L0 : forall p, (Nat.land p launch_async =? 0) = negb (Nat.testbit p 0)) by (intros p; exact (land_bit p 0)).
  assert (L1 : forall p, (Nat.land p launch_deferred =? 0) = negb (Nat.testbit p 1)) by (intros p; exact (land_bit p 1)).
  split; [|split; [|split; reflexivity]].
  - intros p. unfold async_launch. rewrite L0, L1. split; [intros ->; reflexivity|intros -> ->; reflexivity].
  - intros p H. unfold async_launch. rewrite L0, H. reflexivity.
Qed.
Print Assumptions C86_policy_honoured_partial.
