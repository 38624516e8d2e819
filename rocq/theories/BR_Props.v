(** * Properties C16, C17 and C66: boost::barrier

    Model: BR_Model.v; specification: BR_Spec.v.  [W] is the number of values of unsigned int (2^32). *)

From Verif Require Import MonTrace BR_Model BR_Spec BR_Proofs BR_Sim.

(** [threads] threads use a barrier for groups of [n] whose completion function never throws and whose
    size is not changed by it; [intr]: may the threads be interrupted? *)
Definition br_reachable (W threads n : nat) (intr : bool) (c : brconf) : Prop :=
  exists b, barrier_new n = Some b /\ reachable (brprog W (fun _ : unit => Some n) intr) threads b tt c.
Lemma br_reach W threads n intr c : br_reachable W threads n intr c ->
  reachable (brprog W (fun _ : unit => Some n) intr) threads (MkBar n 0) tt c.
Proof. intros (b & Hb & H). destruct n; [discriminate|]. injection Hb as <-. exact H. Qed.

(** ** C16 *)

(** A count of zero is rejected by the constructor, every other count is accepted. *)
Theorem C16_constructor : forall n, barrier_new n = None <-> n = 0.
Proof. intros [|n]; unfold barrier_new; cbn; split; congruence. Qed.
Print Assumptions C16_constructor.

(** At rest, the calls made so far form [calls / n] complete groups: each had exactly one return with
    true and n-1 with false; the members of the incomplete group are blocked. *)
Theorem C16_groups : forall W threads n c, 0 < W -> 0 < n ->
  br_reachable W threads n false c -> patient W (hist c) -> quiescent c ->
  trues (hist c) = calls (hist c) / n /\
  falses (hist c) = (n - 1) * (calls (hist c) / n) /\
  blocked_threads c = calls (hist c) mod n.
Proof. intros W threads n c HW Hn H%br_reach. exact (wrap_at_rest W unit _ n HW Hn (fun _ => eq_refl) threads c H). Qed.
Print Assumptions C16_groups.

(** At every moment: the k-th group is complete only after k*n calls, and no more than n-1 threads per
    completed group have returned with false. *)
Theorem C16_no_early_return : forall W threads n c, 0 < W -> 0 < n ->
  br_reachable W threads n false c -> patient W (hist c) ->
  n * trues (hist c) <= calls (hist c) /\ falses (hist c) <= (n - 1) * trues (hist c).
Proof. intros W threads n c HW Hn H%br_reach. exact (wrap_counts W unit _ n HW Hn (fun _ => eq_refl) threads c H). Qed.
Print Assumptions C16_no_early_return.

(** A thread that returns with false was released by a group completed while it was waiting (also when
    threads are interrupted). *)
Theorem C16_released_by_own_group : forall W threads n intr c t op h1 h2, 0 < W -> 0 < n ->
  br_reachable W threads n intr c -> patient W (hist c) ->
  hist c = h1 ++ EDone t op (BRet false) :: h2 ->
  exists a t' op' b, h2 = a ++ EDone t' op' (BRet true) :: b /\ in_wait t b /\
    forall op r, ~ In (EDone t op r) a.
Proof.
  intros W threads n intr c t op h1 h2 HW Hn H%br_reach.
  exact (wrap_released W unit _ n HW Hn (fun _ => eq_refl) intr threads c t op h1 h2 H).
Qed.
Print Assumptions C16_released_by_own_group.

(** Running threads come to rest (or reach undefined behaviour, which is excluded for patient histories). *)
Theorem C16_comes_to_rest : forall W threads n intr c, br_reachable W threads n intr c ->
  exists ls c', run (brprog W (fun _ : unit => Some n) intr) c ls = Some c' /\
    (quiescent c' \/ In (Crashed bk bop bcv unit) (thr c')) /\
    Forall (fun lb => match lb with LRun _ _ _ _ => True | _ => False end) ls.
Proof.
  intros W threads n intr c H%br_reach. exact (settles_or_crashes tt (br_direct W unit (fun _ => Some n) intr) (c := c) H).
Qed.
Print Assumptions C16_comes_to_rest.

Theorem C16_defined : forall W threads n intr c, 0 < W -> 0 < n ->
  br_reachable W threads n intr c -> patient W (hist c) -> ~ In (Crashed bk bop bcv unit) (thr c).
Proof.
  intros W threads n intr c HW Hn H%br_reach. exact (wrap_no_crash W unit _ n HW Hn (fun _ => eq_refl) intr threads c H).
Qed.
Print Assumptions C16_defined.

Notation wcall t := [LCall unit t BWait; LRun bop t [] tt].
Notation wrun t := [LRun bop t [] tt].

(** Hypotheses are met: five calls at a barrier for two, with a spurious wake-up. *)
Example C16_case : exists c, br_reachable 4 3 2 false c /\ quiescent c /\
  calls (hist c) = 5 /\ trues (hist c) = 2 /\ falses (hist c) = 2 /\ blocked_threads c = 1.
Proof.
  eexists. split; [eexists; split; [reflexivity|]; exists (wcall 0 ++ [LSpurious bop unit 0] ++ wrun 0 ++ wcall 1 ++ wcall 2 ++ wrun 1 ++ wrun 0 ++
    wcall 0 ++ wrun 0 ++ wrun 2 ++ wcall 1); vm_compute; reflexivity|].
  vm_compute. auto.
Qed.

Lemma patient_small W h : trues h < W -> patient W h.
Proof.
  intros H h1 h2 -> a b t op -> _. unfold trues in *. rewrite !filter_app, !app_length in H. lia.
Qed.

Example C16_case_patient : forall h, trues h = 2 -> patient 4 h.
Proof. intros h H. apply patient_small. lia. Qed.

(** The condition [patient] cannot be dropped: a thread left behind by exactly [W] groups misses its
    release (the generation is compared for equality only). *)
Theorem C16_wraparound_refuted : forall W, 2 <= W ->
  exists c, br_reachable W 3 2 false c /\ quiescent c /\
    trues (hist c) = W /\ calls (hist c) = 2 * W /\ blocked_threads c = 1.
Proof.
  intros W HW. set (P := brprog W (fun _ : unit => Some 2) false).
  set (th := [Ready bcv tt BWait (BWaiting 0); Idle bk bop bcv tt; Idle bk bop bcv tt]).
  assert (Hu : forall g, uinc W g <> g).
  { intros g. unfold uinc. destruct (Nat.eqb_spec (S g) W); lia. }
  assert (R : forall g h, exists h', run P (MkCfg (MkBar 2 g) th h)
      (wcall 1 ++ wcall 2 ++ wrun 2 ++ wrun 1) = Some (MkCfg (MkBar 2 (uinc W g)) th h') /\
      trues h' = S (trues h) /\ calls h' = 2 + calls h).
  { intros g h. eexists. split; [|split].
    - cbn -[uinc]. rewrite (proj2 (Nat.eqb_neq g (uinc W g))) by (intros H; apply (Hu g); auto).
      cbn -[uinc]. reflexivity.
    - reflexivity.
    - reflexivity. }
  assert (G : forall j, S j <= W -> exists ls h,
      run P (init bk bop bres bcv 3 (MkBar 2 0) tt) ls = Some (MkCfg (MkBar 2 (if S j =? W then 0 else S j)) th h) /\
      trues h = S j /\ calls h = 2 * S j).
  { induction j as [|j IH]; intros Hj.
    - eexists (wcall 0 ++ wcall 1 ++ wrun 1), _. split; [cbn -[uinc]; reflexivity|]. split; reflexivity.
    - destruct IH as (ls & h & H1 & H2 & H3); [lia|].
      destruct (Nat.eqb_spec (S j) W) as [Heq|_]; [lia|].
      destruct (R (S j) h) as (h' & R1 & R2 & R3).
      exists (ls ++ wcall 1 ++ wcall 2 ++ wrun 2 ++ wrun 1), h'. rewrite run_app, H1, R1.
      split; [reflexivity|]. split; lia. }
  destruct (G (W - 1)) as (ls & h & H1 & H2 & H3); [lia|].
  replace (S (W - 1)) with W in * by lia. rewrite Nat.eqb_refl in H1.
  eexists. split; [eexists; split; [reflexivity|]; exists (ls ++ wrun 0); rewrite run_app; unfold P in H1; rewrite H1; cbn; reflexivity|].
  split; [reflexivity|]. split; [exact H2|]. split; [exact H3|reflexivity].
Qed.
Print Assumptions C16_wraparound_refuted.

(** ** C17 *)

(** What C17 claims: with interruptions, a completed group consists of n threads that stayed, i.e. the
    returns with false are n-1 per group that is completely released. *)
Definition C17_claim : Prop := forall W threads n c, 0 < W -> 0 < n ->
  br_reachable W threads n true c -> patient W (hist c) -> quiescent c ->
  falses (hist c) = (n - 1) * trues (hist c).

(** The code violates it: a thread interrupted in wait() stays counted, so the next thread passes alone. *)
Theorem C17_interrupt_refuted : ~ C17_claim.
Proof.
  intros H.
  assert (G : exists c, br_reachable 4 2 2 true c /\ patient 4 (hist c) /\ quiescent c /\
    trues (hist c) = 1 /\ falses (hist c) = 0).
  { eexists. split; [eexists; split; [reflexivity|]; exists (wcall 0 ++ [LIntr bop unit 0] ++ wrun 0 ++ wcall 1 ++ wrun 1); vm_compute; reflexivity|].
    split; [apply patient_small; vm_compute; lia|]. vm_compute. auto. }
  destruct G as (c & G1 & G2 & G3 & G4 & G5).
  specialize (H 4 2 2 c ltac:(lia) ltac:(lia) G1 G2 G3). rewrite G4, G5 in H. discriminate.
Qed.
Print Assumptions C17_interrupt_refuted.

(** What holds: an interrupted thread counts as arrived; the groups stay groups of [n] calls, and
    nobody else is left blocked. *)
Theorem C17_interrupt_partial : forall W threads n c, 0 < W -> 0 < n ->
  br_reachable W threads n true c -> patient W (hist c) -> quiescent c ->
  trues (hist c) = calls (hist c) / n /\ blocked_threads c <= calls (hist c) mod n.
Proof. intros W threads n c HW Hn H%br_reach. exact (wrap_rest_with_intr W unit _ n HW Hn (fun _ => eq_refl) threads c H). Qed.
Print Assumptions C17_interrupt_partial.

(** ** C66 *)

(** What C66 claims: when the completion function throws, the exception reaches the thread that ran it and
    the other threads of the group are not left blocked. *)
Definition C66_claim : Prop := forall W threads n c,
  0 < n < W -> (exists b, barrier_new n = Some b /\ reachable (brprog W (fun b : bool => if b then Some n else None) false) threads b tt c) ->
  quiescent c -> calls (hist c) = n -> blocked_threads c = 0.

Theorem C66_throwing_completion_refuted : ~ C66_claim.
Proof.
  intros H.
  assert (G : exists c, (exists b, barrier_new 2 = Some b /\ reachable (brprog 4 (fun b : bool => if b then Some 2 else None) false) 2 b tt c) /\
    quiescent c /\ calls (hist c) = 2 /\ blocked_threads c = 1).
  { eexists. split; [eexists; split; [reflexivity|]; exists [LCall bool 0 BWait; LRun bop 0 [] false; LCall bool 1 BWait; LRun bop 1 [] false]; vm_compute; reflexivity|].
    vm_compute. auto. }
  destruct G as (c & G1 & G2 & G3 & G4).
  specialize (H 4 2 2 c ltac:(lia) G1 G2 G3). rewrite G4 in H. discriminate.
Qed.
Print Assumptions C66_throwing_completion_refuted.

(** What holds: the exception reaches the caller that ran the completion function, the generation has
    advanced (so a later wake-up would release the others), but the count is left at zero and nobody is
    notified. *)
Theorem C66_throwing_completion_partial : forall W E (fct : E -> option nat) intr t e s,
  b_count s = 1 -> fct e = None ->
  bfrag W fct t e BStart s = (MkBar 0 (uinc W (b_gen s)), [], ORet bk bcv BThrown) /\
  (forall g t' e', g = b_gen s -> 2 <= W ->
     snd (frag (brprog W fct intr) t' e' (BWaiting g) (MkBar 0 (uinc W (b_gen s)))) = ORet bk bcv (BRet false)).
Proof.
  intros W E fct intr t e s Hc He. split.
  - cbn. rewrite Hc. cbn. rewrite He. reflexivity.
  - intros g t' e' -> HW. cbn. destruct (Nat.eqb_spec (b_gen s) (uinc W (b_gen s))) as [H|H]; [|reflexivity].
    exfalso. revert H. unfold uinc. destruct (Nat.eqb_spec (S (b_gen s)) W); lia.
Qed.
Print Assumptions C66_throwing_completion_partial.

(** Cases for C17 and C66. Of three threads at a barrier for two, thread 0 is interrupted, thread 1 completes the group and thread 2 is left waiting. *)
Example C17_case : exists c, br_reachable 4 3 2 true c /\ patient 4 (hist c) /\ quiescent c /\
  trues (hist c) = 1 /\ calls (hist c) = 3 /\ blocked_threads c = 1.
Proof.
  eexists. split; [eexists; split; [reflexivity|]; exists (wcall 0 ++ [LIntr bop unit 0] ++ wrun 0 ++ wcall 1 ++ wrun 1 ++ wcall 2); vm_compute; reflexivity|].
  split; [apply patient_small; vm_compute; lia|]. vm_compute. auto.
Qed.
(** Thread 0 waits; thread 1, whose completion function will throw, is the last of its group. *)
Example C66_case : exists c, (exists b, barrier_new 2 = Some b /\ reachable (brprog 4 (fun b : bool => if b then Some 2 else None) false) 2 b tt c) /\
  b_count (sh c) = 1 /\ blocked_threads c = 1 /\ nth_error (thr c) 1 = Some (Ready bcv tt BWait BStart).
Proof.
  eexists. split; [eexists; split; [reflexivity|]; exists [LCall bool 0 BWait; LRun bop 0 [] false; LCall bool 1 BWait]; vm_compute; reflexivity|].
  vm_compute. auto.
Qed.
