(** * Theorems about the 64-bit tick count *)
From Verif Require Import GT_Spec GT_Inv.
Set Implicit Arguments.

(** ** C147 *)
(** As long as no comparison is made with a value 49.7 days old, every value is the time since a fixed origin at some moment of the call, and never goes back. *)
Theorem tick_count_exact_partial : forall start s, reach start s -> timely (hist s) -> exact (base start) (hist s) /\ never_back (hist s).
Proof.
  intros start s Hr Ht. pose proof (i_exact (reach_inv Hr Ht)) as He. split; [exact He|]. exact (@exact_never_back _ _ _ (reach_ordered Hr) He).
Qed.
Print Assumptions tick_count_exact_partial.
(** That is so if calls are short and something calls often enough; the refreshes come every 0x7fffffff ms, which leaves more than 12 days for each call. *)
Theorem tick_count_prompt_partial : forall D1 D2 start s, 0 <= D1 -> 0 <= D2 -> 2 * D1 + D2 < 2 ^ 32 -> reach start s -> prompt D1 D2 (wrap start) (hist s) ->
  exact (base start) (hist s) /\ never_back (hist s).
Proof.
  intros D1 D2 start s H1 H2 HD Hr Hp. apply tick_count_exact_partial; [exact Hr|]. exact (proj1 (reach_prompt H1 H2 HD Hr Hp)).
Qed.
Print Assumptions tick_count_prompt_partial.
Example refresh_interval : 2 * (12 * 24 * 3600 * 1000) + 2147483647 < 2 ^ 32.
Proof. reflexivity. Qed.

(** Examples are executions of this program *)
Inductive deed := DTime (d : Z) | DLoad (t : nat) | DRead (t : nat) | DStore (t : nat).
Definition does (s : sys) (d : deed) : sys :=
  match d with
  | DTime d => Sys (now s + Z.abs d) (ticks s) (ticks_at s) (pcs s) (at_ s) (hist s)
  | DLoad t => match pcs s t with
               | Idle => Sys (now s) (ticks s) (ticks_at s) (upd (pcs s) t (Loaded (ticks s))) (upd (at_ s) t (ticks_at s)) (EBegin (now s) t :: hist s)
               | _ => s end
  | DRead t => match pcs s t with
               | Loaded old => Sys (now s) (ticks s) (ticks_at s) (upd (pcs s) t (Read (new_state old (now s mod W)))) (upd (at_ s) t (now s)) (ETicks (now s) t (at_ s t) :: hist s)
               | _ => s end
  | DStore t => match pcs s t with
                | Read v => Sys (now s) v (at_ s t) (upd (pcs s) t Idle) (at_ s) (EReturn (now s) t v :: hist s)
                | _ => s end
  end.
Lemma runs_reach start l : reach start (fold_left does l (sys0 start)).
Proof.
  assert (G : forall s, reach start s -> reach start (fold_left does l s)); [|apply G, r_init].
  induction l as [|d l IH]; intros s Hr; [exact Hr|]. cbn [fold_left]. apply IH. destruct d as [d|t|t|t]; cbn.
  - eapply r_step; [exact Hr|]. apply s_time. lia.
  - destruct (pcs s t) eqn:E; try exact Hr. eapply r_step; [exact Hr|]. now apply s_load.
  - destruct (pcs s t) eqn:E; try exact Hr. eapply r_step; [exact Hr|]. now apply s_read.
  - destruct (pcs s t) eqn:E; try exact Hr. eapply r_step; [exact Hr|]. now apply s_store.
Qed.
(** Two threads make the first calls of the program while GetTickCount wraps around.  A third call, after both, returns less than the first has returned. *)
Definition race : list event :=
  [EReturn (W + 6) 3 6; ETicks (W + 6) 3 (W + 5); EBegin (W + 6) 3; EReturn (W + 5) 2 5; ETicks (W + 5) 2 0; EReturn (W - 1) 1 (W - 1); ETicks (W - 1) 1 0;
   EBegin (W - 1) 2; EBegin (W - 1) 1].
Lemma race_reach : exists s, reach (W - 1) s /\ hist s = race.
Proof. eexists. split; [apply (runs_reach (W - 1) [DLoad 1; DLoad 2; DRead 1; DStore 1; DTime 6; DRead 2; DStore 2; DTime 1; DLoad 3; DRead 3; DStore 3])|vm_compute; reflexivity]. Qed.
Theorem tick_count_never_back_refuted : ~ (forall start s, 0 <= start -> reach start s -> never_back (hist s)).
Proof.
  intros H. destruct race_reach as (s & Hr & Eh). assert (H0 : 0 <= W - 1) by discriminate. specialize (H _ _ H0 Hr). rewrite Eh in H.
  specialize (H [] [ETicks (W + 6) 3 (W + 5); EBegin (W + 6) 3; EReturn (W + 5) 2 5; ETicks (W + 5) 2 0] [ETicks (W - 1) 1 0; EBegin (W - 1) 2; EBegin (W - 1) 1]
    (W - 1) 1%nat (W - 1) (W + 6) 3%nat 6 (W + 6) eq_refl eq_refl). vm_compute in H. now apply H.
Qed.
Print Assumptions tick_count_never_back_refuted.
(** Without refreshes (the system refused to register them) a wrap-around is missed. *)
Theorem tick_count_exact_refuted : ~ (forall s, reach 0 s -> exact 0 (hist s)).
Proof.
  intros H. assert (R : exists s, reach 0 s /\ hist s = [EReturn (W + 7) 1 7; ETicks (W + 7) 1 5; EBegin (W + 7) 1; EReturn 5 1 5; ETicks 5 1 0; EBegin 5 1]).
  { eexists. split; [apply (runs_reach 0 [DTime 5; DLoad 1; DRead 1; DStore 1; DTime (W + 2); DLoad 1; DRead 1; DStore 1])|vm_compute; reflexivity]. }
  destruct R as (s & Hr & Eh). specialize (H s Hr). rewrite Eh in H. cbn [exact begun] in H. destruct H as ((b & E & Hv) & _). injection E as <-. vm_compute in Hv. now apply (proj1 Hv).
Qed.
Print Assumptions tick_count_exact_refuted.
(** Calls before and after a wrap-around *)
Example tick_count_case : exists s, reach 5 s /\ prompt 1 (W - 7) (wrap 5) (hist s) /\ timely (hist s) /\ hist s = [EReturn (W + 3) 2 (W + 3); ETicks (W + 3) 2 9; EBegin (W + 2) 2; EReturn 9 1 9; ETicks 9 1 0; EBegin 8 1].
Proof.
  assert (R : exists s, reach 5 s /\ hist s = [EReturn (W + 3) 2 (W + 3); ETicks (W + 3) 2 9; EBegin (W + 2) 2; EReturn 9 1 9; ETicks 9 1 0; EBegin 8 1]).
  { eexists. split; [apply (runs_reach 5 [DTime 3; DLoad 1; DTime 1; DRead 1; DStore 1; DTime (W - 7); DLoad 2; DTime 1; DRead 2; DStore 2])|vm_compute; reflexivity]. }
  destruct R as (s & Hr & Eh). exists s. split; [exact Hr|]. rewrite Eh. split; [|split; [|reflexivity]].
  - cbn [prompt begun last_return returned_before Nat.eqb].
    refine (conj _ (conj _ (conj _ (conj _ (conj _ (conj _ (conj _ (conj _ I)))))))); intros; try discriminate;
      repeat match goal with E : Some _ = Some _ |- _ => injection E as <- end; change (wrap 5) with W; unfold W; lia.
  - intros n t st [E|[E|[E|[E|[E|[E|[]]]]]]]; try discriminate; injection E as <- <- <-; unfold W; lia.
Qed.
