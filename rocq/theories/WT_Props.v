(** * C160: notifications of Windows condition variables and stale reads *)
From Verif Require Import WT_Model WT_Spec WT_Proofs.

(** A notification that wakes nobody overlooks nobody whose beginning to wait happened before it. *)
Theorem C160_overlooks_nobody : forall s, reach s -> overlooks_nobody (log s).
Proof. exact nobody_overlooked. Qed.
Print Assumptions C160_overlooks_nobody.

(** Wake-ups are given only when somebody waits. *)
Theorem C160_no_surplus : forall s, reach s -> no_surplus (log s).
Proof. exact none_surplus. Qed.
Print Assumptions C160_no_surplus.

(** If all waits have begun in a way that happened before a notification, it wakes somebody if anybody waits. *)
Theorem C160_wakes_if_all_known : forall s, reach s -> wakes_if_all_known (log s).
Proof. exact known_woken. Qed.
Print Assumptions C160_wakes_if_all_known.

(** Cases. Runs are given by what is done; a read names the write that it returns. *)
Inductive act := BReg (t k : nat) | BLook (t : nat) (all : bool) (k : nat) | BLock (t k : nat) | BRel (t : nat) | BAcq (t i : nat).
Definition exec (s : st) (a : act) : option st :=
  match a with
  | BReg t k => let v := join (vw s t) (lv s) in
      match pc s t, nth_error (mem s) k with
      | None, Some m => if v_ts v <=? k then let v' := V (length (mem s)) (nexte s :: v_ev v) in
          Some (MkSt (mem s ++ [Msg (one_more (m_val m)) v']) (upd (vw s) t v') v' (pub s) (pc s) (EReg t (nexte s) :: log s) (S (nexte s))) else None
      | _, _ => None end
  | BLook t all k => match pc s t, nth_error (mem s) k with
      | None, Some m => if v_ts (vw s t) <=? k then let w := upd (vw s) t (join (join (vw s t) (V k [])) (m_view m)) in
          Some (if m_val m =? 0 then MkSt (mem s) w (lv s) (pub s) (pc s) (ENot t all false (v_ev (vw s t)) :: log s) (nexte s)
                else MkSt (mem s) w (lv s) (pub s) (upd (pc s) t (Some all)) (log s) (nexte s)) else None
      | _, _ => None end
  | BLock t k => let v := join (vw s t) (lv s) in
      match pc s t, nth_error (mem s) k with
      | Some all, Some m => if v_ts v <=? k then
          Some (if m_val m =? 0 then MkSt (mem s) (upd (vw s) t v) v (pub s) (upd (pc s) t None) (ENot t all false (v_ev v) :: log s) (nexte s)
                else let v' := V (length (mem s)) (v_ev v) in
                  MkSt (mem s ++ [Msg (after_wake all (m_val m)) v']) (upd (vw s) t v') v' (pub s) (upd (pc s) t None) (ENot t all true (v_ev v) :: log s) (nexte s)) else None
      | _, _ => None end
  | BRel t => Some (MkSt (mem s) (vw s) (lv s) (vw s t :: pub s) (pc s) (log s) (nexte s))
  | BAcq t i => match nth_error (pub s) i with
      | Some v => Some (MkSt (mem s) (upd (vw s) t (join (vw s t) v)) (lv s) (pub s) (pc s) (log s) (nexte s)) | None => None end
  end.
Fixpoint runs (s : st) (l : list act) : option st :=
  match l with [] => Some s | a :: r => match exec s a with Some s' => runs s' r | None => None end end.
Lemma exec_step : forall s a s', exec s a = Some s' -> step s s'.
Proof.
  intros s a s' H. destruct a; cbn [exec] in H; cbv zeta in H.
  - destruct (pc s t) eqn:P; [discriminate|]. destruct (nth_error (mem s) k) as [m|] eqn:E; [|discriminate]. destruct (_ <=? k) eqn:L in H; [|discriminate]. injection H as <-.
    apply Nat.leb_le in L. eapply s_reg; [auto|reflexivity|split; eauto|reflexivity].
  - destruct (pc s t) eqn:P; [discriminate|]. destruct (nth_error (mem s) k) as [m|] eqn:E; [|discriminate]. destruct (_ <=? k) eqn:L in H; [|discriminate]. injection H as <-.
    apply Nat.leb_le in L. destruct (m_val m =? 0) eqn:Z; [apply Nat.eqb_eq in Z; eapply s_look0|apply Nat.eqb_neq in Z; eapply s_look1]; auto; split; auto.
  - destruct (pc s t) as [all|] eqn:P; [|discriminate]. destruct (nth_error (mem s) k) as [m|] eqn:E; [|discriminate]. destruct (_ <=? k) eqn:L in H; [|discriminate]. injection H as <-.
    apply Nat.leb_le in L. destruct (m_val m =? 0) eqn:Z; [apply Nat.eqb_eq in Z; eapply s_none|apply Nat.eqb_neq in Z; eapply s_wake with (v := join (vw s t) (lv s))]; eauto; split; eauto.
  - injection H as <-. apply s_rel.
  - destruct (nth_error (pub s) i) as [v|] eqn:E; [|discriminate]. injection H as <-. apply s_acq. eapply nth_error_In; eauto.
Qed.
Lemma runs_reach : forall l s s', reach s -> runs s l = Some s' -> reach s'.
Proof.
  induction l as [|a l IH]; intros s s' R H; cbn in H; [congruence|].
  destruct (exec s a) as [s1|] eqn:E; [|discriminate]. eapply IH; [eapply r_step; [exact R|eapply exec_step; exact E]|exact H].
Qed.
(** Threads 0 and 1 wait and release the user's mutex; thread 2 locks it, and notifies: and wakes one. Then it notifies all, and once more: nobody is left. *)
Definition run_woken : list act := [BReg 0 0; BRel 0; BReg 1 1; BRel 1; BAcq 2 0; BLook 2 false 2; BLock 2 2; BLook 2 true 3; BLock 2 3; BLook 2 false 4].
Example C160_woken : exists s a b c, reach s /\ log s = [ENot 2 false false a; ENot 2 true true b; ENot 2 false true c; EReg 1 1; EReg 0 0] /\
  (In 0 a /\ In 1 a) /\ (In 0 b /\ In 1 b) /\ (In 0 c /\ In 1 c) /\ waiting (log s) = 0.
Proof.
  destruct (runs start run_woken) as [s|] eqn:E; [|vm_compute in E; discriminate].
  pose proof (runs_reach _ _ _ r_init E) as R. vm_compute in E. injection E as <-.
  eexists _, _, _, _. split; [exact R|]. split; [reflexivity|]. cbn. auto 20.
Qed.
(** Thread 1 has not synchronised with thread 0, which waits: it reads 0 and does nothing. *)
Definition run_stale : list act := [BReg 0 0; BLook 1 false 0].
Theorem C160_wakes_if_any_refuted : ~ (forall s, reach s -> wakes_if_any (log s)).
Proof.
  intros H. destruct (runs start run_stale) as [s|] eqn:E; [|vm_compute in E; discriminate].
  pose proof (runs_reach _ _ _ r_init E) as R. specialize (H s R). clear R. vm_compute in E. injection E as <-.
  assert (K : false = true); [|discriminate]. eapply (H [] 1 false false [] [EReg 0 0]); [reflexivity|cbn; lia].
Qed.
Print Assumptions C160_wakes_if_any_refuted.
