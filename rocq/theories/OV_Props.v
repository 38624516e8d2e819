(** * Theorems about visible outcomes *)
From Coq Require Import List Arith Lia.
From Verif Require Import OV_Spec OV_Inv OV_Launch.
Import ListNotations.
Set Implicit Arguments.

(** ** C150 *)
(** The outcome set through a promise, or at the end of a thread, is the one set, and does not change, even if launching continuations fails. *)
Theorem outcome_stable : forall k s, k <> Task -> reach k s -> stable (hist s) /\ honest (hist s).
Proof.
  intros k s Hk Hr. split.
  - intros h1 h2 h3 t o t' o' E. destruct (reach_stable Hr _ _ _ _ _ _ _ E) as [A|(A & _)]; [exact A|congruence].
  - intros h1 h2 t o E. destruct (reach_honest Hr _ _ _ _ E) as [A|(A & _)]; [exact A|congruence].
Qed.
Print Assumptions outcome_stable.
(** The same for functions whose result is stored, if no launch throws. *)
Theorem outcome_stable_partial : forall s, reach Task s -> ~ failed (hist s) -> stable (hist s) /\ honest (hist s).
Proof.
  intros s Hr Hf. split.
  - intros h1 h2 h3 t o t' o' E. destruct (reach_stable Hr _ _ _ _ _ _ _ E) as [A|(_ & v & n & e & _ & _ & A)]; [exact A|]. destruct Hf. exists n, e. rewrite E. apply in_or_app. right. right.
    apply in_app_or in A. apply in_or_app. destruct A as [A|A]; [left; exact A|right; right; exact A].
  - intros h1 h2 t o E. destruct (reach_honest Hr _ _ _ _ E) as [A|(_ & n & e & _ & A)]; [exact A|]. destruct Hf. exists n, e. rewrite E. apply in_or_app. right. right. exact A.
Qed.
Print Assumptions outcome_stable_partial.
(** If one throws, the only change is from the function's value to the exception of that launch. *)
Theorem outcome_change_partial : forall s, reach Task s -> value_then_failure (hist s).
Proof.
  intros s Hr h1 h2 h3 t o t' o' E. destruct (reach_stable Hr _ _ _ _ _ _ _ E) as [A|(_ & v & n & e & A & B & C)]; [left; exact A|]. right. exists v, n, e. split; [exact A|]. split; [exact B|].
  split; [|exact C]. assert (E2 : hist s = (h1 ++ EObs t' o' :: h2) ++ EObs t (Some o) :: h3) by (rewrite E, <- app_assoc; reflexivity).
  destruct (reach_honest Hr _ _ _ _ E2) as [F|(_ & n1 & e1 & F & _)]; [now rewrite <- A|congruence].
Qed.
Print Assumptions outcome_change_partial.
(** When the producer has ended, however it ended, there is an outcome. *)
Theorem outcome_ready : forall k s, reach k s -> pc s = PEnd \/ (exists e, pc s = PGone e) -> view s <> None.
Proof.
  intros k s Hr Hp. pose proof (i_pc (reach_inv Hr)) as P. unfold at_pc in P. destruct Hp as [Hp|(e & Hp)]; rewrite Hp in P; destruct P as (Hd & Hs);
    destruct (@view_settled _ _ Hd Hs) as (o & _ & [A|(_ & v & n & e1 & _ & A & _)]); congruence.
Qed.
Print Assumptions outcome_ready.

Tactic Notation "fwd" hyp(R) uconstr(rule) := let H := fresh "H" in pose proof R as H; clear R; eapply r_step in H; [|eapply rule; (reflexivity || discriminate)]; cbn in H; rename H into R.
(** A function returns 7; one continuation is attached; thread 1 finds the value; the launch throws 3; thread 2 finds exception 3. *)
Lemma change_reach : exists s, reach Task s /\ hist s = [EObs 2 (Some (Exc 3)); EFail 0 3; EObs 1 (Some (Val 7)); EFun (Val 7)].
Proof.
  pose proof (r_init Task) as R0. fwd R0 (s_then Task _).
  fwd R0 (@s_value Task _ 7).
  fwd R0 (s_observe Task _ 1).
  fwd R0 (@s_fail Task _ 0 [] false 3).
  fwd R0 (@s_catch Task _ 3).
  fwd R0 (s_observe Task _ 2). eexists. split; [exact R0|reflexivity].
Qed.
Theorem outcome_stable_refuted : ~ (forall s, reach Task s -> stable (hist s)).
Proof.
  intros H. destruct change_reach as (s & Hr & E). specialize (H s Hr). rewrite E in H. discriminate (H [] [EFail 0 3] [EFun (Val 7)] 1 (Val 7) 2 (Some (Exc 3)) eq_refl).
Qed.
Print Assumptions outcome_stable_refuted.
(** Without a failing launch: two threads find the value. *)
Example no_failure_reach : exists s, reach Task s /\ pc s = PEnd /\ hist s = [EObs 2 (Some (Val 7)); ELaunch 0; EObs 1 (Some (Val 7)); EFun (Val 7); EObs 1 None].
Proof.
  pose proof (r_init Task) as R0. fwd R0 (s_then Task _). fwd R0 (s_observe Task _ 1).
  fwd R0 (@s_value Task _ 7).
  fwd R0 (s_observe Task _ 1).
  fwd R0 (@s_launch Task _ 0 [] false).
  fwd R0 (@s_end Task _ false).
  fwd R0 (s_observe Task _ 2). eexists. split; [exact R0|split; reflexivity].
Qed.
(** A promise whose set_value lets the exception of a launch out: the value stays. *)
Example promise_failure_reach : exists s, reach Promise s /\ pc s = PGone 3 /\ hist s = [EObs 2 (Some (Val 7)); EGone 3; EFail 0 3; EObs 1 (Some (Val 7)); EFun (Val 7); ERetry 4].
Proof.
  pose proof (r_init Promise) as R0. fwd R0 (s_then Promise _). fwd R0 (@s_retry Promise _ 4).
  fwd R0 (@s_value Promise _ 7).
  fwd R0 (s_observe Promise _ 1).
  fwd R0 (@s_fail Promise _ 0 [] true 3).
  fwd R0 (s_observe Promise _ 2). eexists. split; [exact R0|split; reflexivity].
Qed.

(** ** C151 *)
(** An exception that leaves the function's thread comes from a launch, and, except at thread exit, only if the function has thrown. *)
Theorem no_escape_partial : forall k s e, reach k s -> In (EGone e) (hist s) ->
  (exists n, In (EFail n e) (hist s)) /\ (k = Task -> exists e', In (EFun (Exc e')) (hist s)).
Proof. intros k s e Hr Hin. exact (i_gone (reach_inv Hr) _ Hin). Qed.
Print Assumptions no_escape_partial.
(** A function run by async throws 5, one continuation is attached, its launch throws 3: exception 3 leaves the thread, which ends the program. *)
Theorem no_escape_refuted : exists s, reach Task s /\ hist s = [EGone 3; EFail 0 3; EFun (Exc 5)].
Proof.
  pose proof (r_init Task) as R0. fwd R0 (s_then Task _).
  fwd R0 (@s_throw Task _ 5).
  fwd R0 (@s_catch Task _ 5).
  fwd R0 (@s_fail Task _ 0 [] true 3). eexists. split; [exact R0|reflexivity].
Qed.
Print Assumptions no_escape_refuted.
(** At thread exit a value is enough; the exception leaves a destructor. *)
Theorem no_escape_at_exit_refuted : exists s, reach AtExit s /\ hist s = [EGone 3; EFail 0 3; EFun (Val 7)].
Proof.
  pose proof (r_init AtExit) as R0. fwd R0 (s_then AtExit _).
  fwd R0 (@s_store_value AtExit _ 7).
  fwd R0 (@s_notify AtExit _).
  fwd R0 (@s_fail AtExit _ 0 [] true 3). eexists. split; [exact R0|reflexivity].
Qed.
Print Assumptions no_escape_at_exit_refuted.

(** ** C51, for every kind of producer *)
(** Every continuation is launched at most once (or one attempt fails), only after the outcome was produced, and only if it was attached. *)
Theorem launch_once : forall k s n, reach k s -> tries n (hist s) <= 1 /\ (nxt s <= n -> tries n (hist s) = 0) /\
  forall h1 x h2, hist s = h1 ++ x :: h2 -> try_of n x = true -> exists o, In (EFun o) h2.
Proof.
  intros k s n Hr. pose proof (reach_linv Hr) as I. split; [|split].
  - pose proof (l_once I n) as A. unfold sum in A. lia.
  - intros Hn. pose proof (@l_new _ I n Hn) as A. unfold sum in A. lia.
  - intros h1 x h2 E Hx. exact (launch_after Hr _ _ _ _ E Hx).
Qed.
Print Assumptions launch_once.
(** When the producer has ended and none of its launches threw, every continuation attached so far was launched, or the launch threw to the caller of then. *)
Theorem launch_all_partial : forall k s n, reach k s -> ended s -> ~ failed (hist s) -> n < nxt s ->
  tries n (hist s) = 1.
Proof.
  intros k s n Hr He Hf Hn. pose proof (reach_linv Hr) as I. pose proof (i_pc (reach_inv Hr)) as P. unfold at_pc in P.
  assert (Hu : unfailed (hist s)) by (intros m e Hin; apply Hf; now exists m, e). pose proof (@l_all _ I Hu n Hn) as A. unfold sum, pend in A.
  assert (Hd : done s = true) by (destruct He as [E|(e & E)]; rewrite E in P; exact (proj1 P)). rewrite (i_conts (reach_inv Hr) Hd) in A.
  destruct He as [E|(e & E)]; rewrite E in A; exact A.
Qed.
Print Assumptions launch_all_partial.
(** Two continuations; the launch of the first throws; the second is never launched, although the outcome is there and the producer has ended. *)
Theorem launch_all_refuted : exists s, reach Task s /\ ended s /\ view s = Some (Exc 3) /\ 1 < nxt s /\ forall s', later Task s s' -> tries 1 (hist s') = 0.
Proof.
  pose proof (r_init Task) as R0. fwd R0 (s_then Task _). fwd R0 (s_then Task _).
  fwd R0 (@s_value Task _ 7). fwd R0 (@s_fail Task _ 0 [1] false 3). fwd R0 (@s_catch Task _ 3). fwd R0 (@s_end Task _ true).
  eexists. split; [exact R0|]. split; [left; reflexivity|]. split; [reflexivity|]. split; [cbn; lia|].
  intros s' Hl. refine (proj1 (@lost Task _ 1 R0 _ _ _ _ Hl)); [left; reflexivity|cbn; lia|reflexivity].
Qed.
Print Assumptions launch_all_refuted.
(** Two continuations attached before and one after the end, whose launch throws to the caller of then. *)
Example continuations_reach : exists s, reach Promise s /\ ended s /\ nxt s = 3 /\ hist s = [EThen 2 9; ELaunch 1; ELaunch 0; EFun (Exc 5)].
Proof.
  pose proof (r_init Promise) as R0. fwd R0 (s_then Promise _). fwd R0 (s_then Promise _). fwd R0 (@s_exception Promise _ 5). fwd R0 (@s_launch Promise _ 0 [1] true).
  fwd R0 (@s_launch Promise _ 1 [] true). fwd R0 (@s_end Promise _ true). fwd R0 (s_then_fail Promise _ 9). eexists. split; [exact R0|]. split; [left; reflexivity|]. split; reflexivity.
Qed.
