(** * Properties C108-C111: call_once on Windows

    Model: WO_Model.v; specification: WO_Spec.v; proofs: WO_Proofs.v, WO_Bound.v. *)
From Verif Require Import WO_Bound.

Lemma reach_run : forall n ls s, runl (init n) ls = Some s -> reach n s.
Proof.
  intros n ls s H. assert (G : forall ls s0, reach n s0 -> runl s0 ls = Some s -> reach n s).
  { clear ls H. induction ls as [|l ls IH]; intros s0 H0 H; cbn in H; [injection H as <-; exact H0|].
    destruct (exec s0 l) as [s1|] eqn:E; [|discriminate]. eapply IH; [eapply r_step; eauto|exact H]. }
  eapply G; [apply r_init|exact H].
Qed.

(** ** C108: the function is executed to completion exactly once *)

(** It returns at most once; each time it is called it has not returned yet and all earlier calls have thrown; call_once returns only
    when it has returned, and throws only what the function has just thrown in the same call. *)
Theorem call_once_win_exactly_once : forall n s, reach n s ->
  ends (hist s) <= 1 /\ one_at_a_time (hist s) /\ right_returns (hist s).
Proof. exact once. Qed.
Print Assumptions call_once_win_exactly_once.

Theorem call_once_win_no_overlap : forall n s t t', reach n s ->
  place_of t (hist s) = InFunction -> place_of t' (hist s) = InFunction -> t = t'.
Proof. exact no_overlap. Qed.
Print Assumptions call_once_win_no_overlap.

(** ** C109: nobody is left behind *)

(** When nothing but the function can go on, a thread that is in call_once waits for a thread that is in the function. *)
Theorem call_once_win_none_left_behind : forall n s t, reach n s -> at_rest s ->
  place_of t (hist s) <> Outside -> exists t', place_of t' (hist s) = InFunction.
Proof. exact not_left_behind. Qed.
Print Assumptions call_once_win_none_left_behind.

(** After exceptions only, the next caller calls the function again. *)
Theorem call_once_win_retry : forall n s t, reach n s -> at_rest s -> (forall u, place_of u (hist s) <> InFunction) -> ends (hist s) = 0 -> t < n ->
  exists s', runl s [LCall t; LRun t; LRun t; LRun t; LRun t] = Some s' /\ place_of t (hist s') = InFunction.
Proof. exact retry. Qed.
Print Assumptions call_once_win_retry.

(** Once one call has returned normally, all other calls do, after a bounded number of steps of the program, whatever the schedule. *)
Theorem call_once_win_finishes : forall n s t, reach n s -> In (ERet t RRan) (hist s) \/ In (ERet t RSkipped) (hist s) ->
  (forall ls s', (forall l, In l ls -> no_call l) -> runl s ls = Some s' -> length ls <= 15 * n) /\
  (at_rest s -> forall u, place_of u (hist s) = Outside).
Proof. intros n s t H Hr. split; [intros ls s' Hn Hls; exact (@finishes n s t ls s' H Hr Hn Hls)|intros Ha u; exact (@all_return n s t u H Hr Ha)]. Qed.
Print Assumptions call_once_win_finishes.

(** ** C110: threads that wait do not use the processor *)

Definition bounded_steps_in_a_call (n : nat) (ok : sys -> Prop) : Prop := exists bound, forall s ls s' t, reach n s -> runl s ls = Some s' -> ok s' ->
  (forall l, In l ls -> l <> LCall t) -> steps_of t ls <= bound.

(** It holds as long as the function has not thrown ... *)
Theorem call_once_win_waits_asleep_partial : forall n, bounded_steps_in_a_call n (fun s => throws (hist s) = 0).
Proof. intros n. exists 16. intros s ls s' t H Hr Ht Hn. exact (@waits_asleep n s ls s' t H Hr Ht Hn). Qed.
Print Assumptions call_once_win_waits_asleep_partial.

(** ... but not afterwards: the event can be left signalled while the function is executed again, and a thread that waits goes round the loop. *)
Definition spinning : list label :=
  [LCall 0; LRun 0; LRun 0; LRun 0; LRun 0; LCall 1; LRun 1; LRun 1; LRun 1; LRun 1; LRun 1; LRun 1; LRun 1;
   LEnd 0 true; LRun 0; LRun 0; LCall 2; LRun 2; LRun 2; LRun 2; LRun 2; LRun 0].
Theorem call_once_win_waits_asleep_refuted : exists n, ~ bounded_steps_in_a_call n (fun s => exists t, place_of t (hist s) = InFunction).
Proof.
  exists 3. intros (b & H). destruct (runl (init 3) spinning) as [s|] eqn:E; [|vm_compute in E; discriminate].
  assert (C : runl s [LRun 1; LRun 1; LRun 1] = Some s) by (vm_compute in E; injection E as <-; vm_compute; reflexivity).
  assert (G : forall k, runl s (concat (repeat [LRun 1; LRun 1; LRun 1] k)) = Some s).
  { induction k as [|k IH]; [reflexivity|]. cbn [repeat concat app]. cbn [runl] in C |- *.
    destruct (exec s (LRun 1)) as [s1|]; [|discriminate]. destruct (exec s1 (LRun 1)) as [s2|]; [|discriminate].
    destruct (exec s2 (LRun 1)) as [s3|]; [|discriminate]. injection C as ->. exact IH. }
  assert (N : forall k, steps_of 1 (concat (repeat [LRun 1; LRun 1; LRun 1] k)) = 3 * k).
  { induction k as [|k IH]; [reflexivity|]. unfold steps_of in *. cbn [repeat concat app filter is_step_of Nat.eqb length]. lia. }
  specialize (H s _ s 1 (reach_run 3 _ _ E) (G (S b))). rewrite N in H. assert (3 * S b <= b); [|lia]. apply H.
  - exists 2. vm_compute in E. injection E as <-. reflexivity.
  - intros l Hl ->. apply in_concat in Hl. destruct Hl as (x & Hx & Hl). apply repeat_spec in Hx. subst. destruct Hl as [Hl|[Hl|[Hl|[]]]]; discriminate.
Qed.
Print Assumptions call_once_win_waits_asleep_refuted.

(** ** C111: flags do not interfere *)

(** The events of two flags have different names, in one process and in different ones; the name fits in its buffer. *)
Lemma digits_inj : forall d p q, (p < 16 ^ N.of_nat d)%N -> (q < 16 ^ N.of_nat d)%N -> int_to_string d p = int_to_string d q -> p = q.
Proof.
  induction d as [|d IH]; intros p q Hp Hq H; [cbn in *; lia|]. cbn [int_to_string] in H. pose proof (f_equal (hd 0%N) H) as H1. pose proof (f_equal (@tl N) H) as H2. cbn [hd tl] in H1, H2. clear H.
  assert (L : forall a, N.land a 15 = (a mod 16)%N) by (intros a; change 15%N with (N.ones 4); now rewrite N.land_ones).
  assert (R : forall a, N.shiftr a 4 = (a / 16)%N) by (intros a; now rewrite N.shiftr_div_pow2).
  rewrite !L in H1. rewrite !R in H2.
  assert (B : forall a, (a < 16 ^ N.of_nat (S d))%N -> (a / 16 < 16 ^ N.of_nat d)%N).
  { intros a Ha. rewrite Nat2N.inj_succ, N.pow_succ_r' in Ha. apply N.div_lt_upper_bound; lia. }
  specialize (IH _ _ (B _ Hp) (B _ Hq) H2). pose proof (N.div_mod' p 16) as D1. pose proof (N.div_mod' q 16) as D2. rewrite D1, D2. rewrite IH. lia.
Qed.
Lemma digits_length : forall d p, length (int_to_string d p) = d.
Proof. induction d as [|d IH]; intros p; cbn; [reflexivity|now rewrite IH]. Qed.
Lemma app_inj_length : forall (a b c d : list N), length a = length b -> a ++ c = b ++ d -> a = b /\ c = d.
Proof.
  induction a as [|x a IH]; intros [|y b] c d Hl H; cbn in *; try discriminate; [auto|]. injection H as -> H. injection Hl as Hl.
  destruct (IH _ _ _ Hl H) as [-> ->]. auto.
Qed.

Theorem call_once_win_names : forall fixed ptr address pid address' pid',
  (address < 16 ^ N.of_nat ptr)%N -> (address' < 16 ^ N.of_nat ptr)%N -> (pid < 16 ^ 8)%N -> (pid' < 16 ^ 8)%N ->
  (once_name fixed ptr address pid = once_name fixed ptr address' pid' -> address = address' /\ pid = pid') /\
  length (once_name fixed ptr address pid) = length fixed + ptr + 8 /\
  (Forall (fun c => c <> 0%N) fixed -> Forall (fun c => c <> 0%N) (once_name fixed ptr address pid)).
Proof.
  intros fixed ptr a p a' p' Ha Ha' Hp Hp'. unfold once_name. split; [|split].
  - intros H. apply app_inv_head in H. apply app_inj_length in H; [|now rewrite !digits_length]. destruct H as [H1 H2].
    split; [eapply digits_inj; eauto|]. eapply (digits_inj 8); eauto.
  - rewrite !app_length, !digits_length. lia.
  - intros Hf. assert (Z : forall d q, Forall (fun c => c <> 0%N) (int_to_string d q)).
    { induction d as [|d IH]; intros q; [constructor|]. cbn [int_to_string]. constructor; [lia|apply IH]. }
    apply Forall_app. split; [exact Hf|]. apply Forall_app. auto.
Qed.
Print Assumptions call_once_win_names.

(** ** Concrete cases *)

(** Three threads: the first throws, the second waits, wakes up and executes the function, the third finds it done. *)
Definition retry_case : list label :=
  [LCall 0; LRun 0; LRun 0; LRun 0; LRun 0; LCall 1; LRun 1; LRun 1; LRun 1; LRun 1; LRun 1; LRun 1; LRun 1;
   LEnd 0 true; LRun 0; LRun 0; LRun 0; LRun 0; LRun 1; LRun 1; LRun 1; LRun 1; LRun 1; LEnd 1 false; LRun 1; LRun 1; LRun 1; LRun 1; LRun 1;
   LCall 2; LRun 2; LRun 2].
Example retry_case_runs : exists s, runl (init 3) retry_case = Some s /\ reach 3 s /\
  hist s = [ERet 2 RSkipped; ECall 2; ERet 1 RRan; EEnd 1; EStart 1; ERet 0 RThrew; EThrow 0; ECall 1; EStart 0; ECall 0] /\ at_rest s.
Proof.
  destruct (runl (init 3) retry_case) as [s|] eqn:E; [|vm_compute in E; discriminate]. exists s. split; [reflexivity|].
  split; [exact (reach_run 3 _ _ E)|]. vm_compute in E. injection E as <-. split; [reflexivity|]. intros [|[|[|[|]]]]; reflexivity.
Qed.
(** A thread that waits while another is in the function, and everything at rest. *)
Example waiting_case : exists s, reach 2 s /\ at_rest s /\ place_of 1 (hist s) = Inside /\ place_of 0 (hist s) = InFunction.
Proof.
  destruct (runl (init 2) (firstn 13 retry_case)) as [s|] eqn:E; [|vm_compute in E; discriminate]. exists s.
  split; [exact (reach_run 2 _ _ E)|]. vm_compute in E. injection E as <-. split; [intros [|[|[|]]]; reflexivity|]. split; reflexivity.
Qed.
(** After an exception, at rest, nobody in the function. *)
Example open_again : exists s, reach 1 s /\ at_rest s /\ (forall u, place_of u (hist s) <> InFunction) /\ ends (hist s) = 0 /\ throws (hist s) = 1.
Proof.
  destruct (runl (init 1) [LCall 0; LRun 0; LRun 0; LRun 0; LRun 0; LEnd 0 true; LRun 0; LRun 0; LRun 0; LRun 0]) as [s|] eqn:E; [|vm_compute in E; discriminate].
  exists s. split; [exact (reach_run 1 _ _ E)|]. vm_compute in E. injection E as <-. split; [intros [|[|]]; reflexivity|].
  split; [intros [|]; cbn; discriminate|]. split; reflexivity.
Qed.
Example name_case : once_name [66%N] 4 (256 * 10 + 31) 5 = [66; 65 + 15; 65 + 1; 65 + 10; 65; 65 + 5; 65; 65; 65; 65; 65; 65; 65]%N.
Proof. vm_compute. reflexivity. Qed.
