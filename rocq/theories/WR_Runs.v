(** * Runs of the control blocks of threads on Windows *)
From Verif Require Import WR_Model WR_Spec.

(** What is done next; pointers and dying blocks are given by their positions. *)
Inductive act := ANew (t a : nat) | AStart (t b u : nat) | AExt (t a : nat) | ACopy (t i : nat) (k : kind) | AMove (t i : nat)
  | AUse (i : nat) | AEnd (t b : nat) | ADrop (i : nat) | ADelete (i : nat).
Definition kind_eqb (k k' : kind) : bool :=
  match k, k' with KObj, KObj | KId, KId | KLocal, KLocal | KSelf, KSelf => true | _, _ => false end.
Definition ptr_eqb (p q : ptr) : bool := (p_t p =? p_t q) && (p_b p =? p_b q) && kind_eqb (p_k p) (p_k q).
Definition is_start (b : nat) (x : ev) : bool := match x with EvStart _ b' _ => b' =? b | _ => false end.
Definition is_end (t b : nat) (x : ev) : bool := match x with EvEnd t' b' => (t' =? t) && (b' =? b) | _ => false end.
Definition vacant (s : st) (a : nat) : bool := forallb (fun b => negb (live s b && (addr s b =? a))) (seq 0 (nb s)).
Definition pick {A} (l : list A) (i : nat) : option (list A * A * list A) :=
  match nth_error l i with Some x => Some (firstn i l, x, skipn (S i) l) | None => None end.

Definition exec (s : st) (a : act) : option st :=
  match a with
  | ANew t x => if vacant s x then
      Some (MkSt (S (nb s)) (upd (addr s) (nb s) x) (upd (live s) (nb s) true) (upd (cnt s) (nb s) new_count) (upd (cvw s) (nb s) [])
                 (Ptr t (nb s) KObj :: ptrs s) (dying s) (known s)
                 (upd (vw s) t (nexte s :: vw s t)) (EvNew t (nb s) (nexte s) :: log s) (S (nexte s))) else None
  | AStart t b u => if existsb (ptr_eqb (Ptr t b KObj)) (ptrs s) && negb (known s u) && negb (existsb (is_start b) (log s)) then
      Some (MkSt (nb s) (addr s) (live s) (upd (cnt s) b (add_ref (cnt s b))) (cvw s)
                 (Ptr u b KSelf :: ptrs s) (dying s) (upd (known s) u true)
                 (upd (vw s) u (vw s u ++ vw s t)) (EvStart t b u :: log s) (nexte s)) else None
  | AExt t x => if negb (known s t) && vacant s x then
      Some (MkSt (S (nb s)) (upd (addr s) (nb s) x) (upd (live s) (nb s) true) (upd (cnt s) (nb s) new_ext_count) (upd (cvw s) (nb s) [])
                 (Ptr t (nb s) KSelf :: ptrs s) (dying s) (upd (known s) t true)
                 (upd (vw s) t (nexte s :: vw s t)) (EvStart t (nb s) t :: EvNew t (nb s) (nexte s) :: log s) (S (nexte s))) else None
  | ACopy t i k => match nth_error (ptrs s) i with
      | Some p => if kind_eqb k KId || kind_eqb k KLocal then
          Some (MkSt (nb s) (addr s) (live s) (upd (cnt s) (p_b p) (add_ref (cnt s (p_b p)))) (cvw s)
                 (Ptr t (p_b p) k :: ptrs s) (dying s) (known s)
                 (upd (vw s) t (vw s t ++ vw s (p_t p))) (log s) (nexte s)) else None
      | None => None end
  | AMove t i => match pick (ptrs s) i with
      | Some (l1, p, l2) => if kind_eqb (p_k p) KSelf then None else
          Some (MkSt (nb s) (addr s) (live s) (cnt s) (cvw s)
                 (l1 ++ Ptr t (p_b p) (p_k p) :: l2) (dying s) (known s)
                 (upd (vw s) t (vw s t ++ vw s (p_t p))) (log s) (nexte s))
      | None => None end
  | AUse i => match nth_error (ptrs s) i with
      | Some p => Some (MkSt (nb s) (addr s) (live s) (cnt s) (cvw s) (ptrs s) (dying s) (known s)
                 (upd (vw s) (p_t p) (nexte s :: vw s (p_t p))) (EvUse (p_t p) (p_b p) (nexte s) (vw s (p_t p)) :: log s) (S (nexte s)))
      | None => None end
  | AEnd t b => if existsb (ptr_eqb (Ptr t b KSelf)) (ptrs s) && negb (existsb (is_end t b) (log s)) then
      Some (MkSt (nb s) (addr s) (live s) (cnt s) (cvw s) (ptrs s) (dying s) (known s) (vw s) (EvEnd t b :: log s) (nexte s)) else None
  | ADrop i => match pick (ptrs s) i with
      | Some (l1, p, l2) => if negb (kind_eqb (p_k p) KSelf) || existsb (is_end (p_t p) (p_b p)) (log s) then
          let (c, z) := release (cnt s (p_b p)) in let v := vw s (p_t p) ++ cvw s (p_b p) in
          Some (MkSt (nb s) (addr s) (live s) (upd (cnt s) (p_b p) c) (upd (cvw s) (p_b p) v)
                 (l1 ++ l2) (if z then (p_t p, p_b p) :: dying s else dying s) (known s)
                 (upd (vw s) (p_t p) v) (log s) (nexte s)) else None
      | None => None end
  | ADelete i => match pick (dying s) i with
      | Some (l1, (t, b), l2) => Some (MkSt (nb s) (addr s) (upd (live s) b false) (cnt s) (cvw s) (ptrs s) (l1 ++ l2) (known s)
                 (vw s) (EvFree t b (vw s t) :: log s) (nexte s))
      | None => None end
  end.
Fixpoint runs (s : st) (l : list act) : option st :=
  match l with [] => Some s | a :: r => match exec s a with Some s' => runs s' r | None => None end end.

Lemma kind_eqb_eq : forall k k', kind_eqb k k' = true <-> k = k'.
Proof. now intros [] []. Qed.
Lemma ptr_eqb_eq : forall p q, ptr_eqb p q = true -> p = q.
Proof.
  intros [t b k] [t' b' k'] H. unfold ptr_eqb in H. cbn in H. apply andb_prop in H. destruct H as [H K]. apply andb_prop in H. destruct H as [H1 H2].
  apply Nat.eqb_eq in H1, H2. apply kind_eqb_eq in K. congruence.
Qed.
Lemma has_ptr : forall p l, existsb (ptr_eqb p) l = true -> In p l.
Proof. intros p l H. apply existsb_exists in H. destruct H as (q & A & B). apply ptr_eqb_eq in B. now subst. Qed.
Lemma has_end : forall t b l, existsb (is_end t b) l = true <-> In (EvEnd t b) l.
Proof.
  intros t b l. rewrite existsb_exists. split.
  - intros (x & A & B). destruct x; try discriminate. cbn in B. apply andb_prop in B. destruct B as [B C]. apply Nat.eqb_eq in B, C. now subst.
  - intros H. exists (EvEnd t b). split; [auto|]. cbn. now rewrite !Nat.eqb_refl.
Qed.
Lemma vacant_ok : forall s a, vacant s a = true -> forall b, b < nb s -> live s b = true -> addr s b <> a.
Proof.
  intros s a H b B L E. unfold vacant in H. rewrite forallb_forall in H. specialize (H b). rewrite L, E, Nat.eqb_refl in H. cbn in H. enough (false = true) by discriminate.
  apply H. apply in_seq. lia.
Qed.
Lemma pick_ok : forall A (l : list A) i l1 x l2, pick l i = Some (l1, x, l2) -> l = l1 ++ x :: l2.
Proof.
  intros A l i l1 x l2 H. unfold pick in H. destruct (nth_error l i) as [y|] eqn:E; [|discriminate]. injection H as <- -> <-.
  revert l E. induction i as [|i IH]; intros [|z l] E; try discriminate.
  - injection E as ->. reflexivity.
  - cbn [firstn app]. f_equal. now apply IH.
Qed.
Lemma exec_step : forall s a s', exec s a = Some s' -> step s s'.
Proof.
  intros s a s' H. destruct a; cbn in H.
  - destruct (vacant s a) eqn:V; [|discriminate]. injection H as <-. apply s_new. now apply vacant_ok.
  - destruct (_ && _) eqn:V in H; [|discriminate]. injection H as <-. apply andb_prop in V. destruct V as [V V3]. apply andb_prop in V. destruct V as [V1 V2].
    apply s_start; [now apply has_ptr|now apply negb_true_iff|]. intros t' u' K. apply negb_true_iff in V3.
    enough (existsb (is_start b) (log s) = true) by congruence. apply existsb_exists. exists (EvStart t' b u'). split; [auto|]. cbn. apply Nat.eqb_refl.
  - destruct (_ && _) eqn:V in H; [|discriminate]. injection H as <-. apply andb_prop in V. destruct V as [V1 V2]. apply s_ext; [now apply negb_true_iff|now apply vacant_ok].
  - destruct (nth_error (ptrs s) i) as [p|] eqn:E; [|discriminate]. destruct (_ || _) eqn:V in H; [|discriminate]. injection H as <-.
    apply s_copy; [eapply nth_error_In; eauto|]. apply orb_prop in V. destruct V as [V|V]; apply kind_eqb_eq in V; auto.
  - destruct (pick (ptrs s) i) as [[[l1 p] l2]|] eqn:E; [|discriminate]. destruct (kind_eqb (p_k p) KSelf) eqn:V; [discriminate|]. injection H as <-.
    apply pick_ok in E. apply s_move; [auto|]. intros K. apply kind_eqb_eq in K. congruence.
  - destruct (nth_error (ptrs s) i) as [p|] eqn:E; [|discriminate]. injection H as <-. apply s_use. eapply nth_error_In; eauto.
  - destruct (_ && _) eqn:V in H; [|discriminate]. injection H as <-. apply andb_prop in V. destruct V as [V1 V2]. apply s_end; [now apply has_ptr|].
    intros K. apply has_end in K. rewrite K in V2. discriminate.
  - destruct (pick (ptrs s) i) as [[[l1 p] l2]|] eqn:E; [|discriminate]. destruct (_ || _) eqn:V in H; [|discriminate].
    destruct (release (cnt s (p_b p))) as [c z] eqn:R. injection H as <-. apply pick_ok in E. eapply s_drop; eauto.
    intros K. apply orb_prop in V. destruct V as [V|V]; [rewrite K in V; discriminate|now apply has_end].
  - destruct (pick (dying s) i) as [[[l1 [t b]] l2]|] eqn:E; [|discriminate]. injection H as <-. apply pick_ok in E. now apply s_delete.
Qed.
Lemma runs_reach : forall l s s', reach s -> runs s l = Some s' -> reach s'.
Proof.
  induction l as [|a l IH]; intros s s' R H; cbn in H; [congruence|].
  destruct (exec s a) as [s1|] eqn:E; [|discriminate]. eapply IH; [eapply r_step; [exact R|eapply exec_step; exact E]|exact H].
Qed.

(** Thread 0 (the main thread) makes and starts thread 1, keeps its id, and joins it; thread 1 uses its block and ends. *)
Definition run_id : list act :=
  [ANew 0 100; AStart 0 0 1; AUse 0; ACopy 0 1 KId; AEnd 1 0; ADrop 1; ADrop 1].
(** The same without the id, and the join comes last: the joining thread destroys the function object of thread 1. *)
Definition run_join : list act :=
  [ANew 0 100; AStart 0 0 1; AUse 0; AEnd 1 0; ADrop 0; AUse 0; ADrop 0; ADelete 0].
(** Thread 1 is detached; it destroys its block, whose address is used again for that of thread 2; thread 7, which the library has not started, has its own. *)
Definition run_detach : list act :=
  [ANew 0 100; AStart 0 0 1; AExt 7 200; ADrop 2; AUse 1; AEnd 1 0; ADrop 1; ADelete 0; ANew 0 100; AStart 0 2 2; ACopy 0 0 KId].
