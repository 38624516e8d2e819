(** * Properties C08-C12: sync_queue, sync_deque, sync_priority_queue, devector

    Model: SQ_Model.v; specification: SQ_Spec.v.  [n] is the number of threads;
    [reachable] ranges over all schedules with spurious wake-ups, deadlines
    passing and interruptions. *)

From Coq Require Import Permutation.
From Verif Require Import Monitor MonitorLemmas Settle SQ_Model SQ_Spec SQ_Proofs SQ_More.

Notation fqconf V := (cfg (sq (devector V)) (qk V) (qop V) (qres V (devector V)) scv unit).
(** sync_queue / sync_deque over devector; [mv]: is underlying_queue() ever called? *)
Definition fq_reachable {V} (mv : bool) (n : nat) (c : fqconf V) : Prop :=
  reachable (sqprog (dv_container V) mv) n (sq_new (dv_container V)) tt c.
(** What the queue stores, front first. *)
Definition fq_stored {V} (c : fqconf V) : list V := dv_stored (q_data (sh c)).
Definition holds_list {V} (d : devector V) (l : list V) : Prop := dv_stored d = l.

Notation pqconf V := (cfg (sq (list V)) (qk V) (qop V) (qres V (list V)) scv unit).
Definition pq_reachable {V} (push_heap pop_heap : list V -> list V) (mv : bool) (n : nat) (c : pqconf V) : Prop :=
  reachable (sqprog (pq_container push_heap pop_heap) mv) n (sq_new (pq_container push_heap pop_heap)) tt c.

Definition qcall {V} (t : nat) (op : qop V) : list (label (qop V) bool) :=
  [LCall bool t op; LRun _ t [] false].

Lemma no_underlying {V D} (ct : container V D) n s0 c :
  reachable (sqprog ct false) n s0 tt c -> forall t r, ~ In (EDone t QUnderlying r) (hist c).
Proof.
  intros Hr.
  assert (G : Forall (fun x : tstat (qk V) (qop V) scv unit =>
     match x with Ready _ _ op _ | Asleep _ op _ _ => op <> QUnderlying | _ => True end) (thr c) /\
     forall t r, ~ In (EDone t QUnderlying r) (hist c)).
  { revert c Hr. apply reachable_inv.
    - split; [apply Forall_forall; intros x Hx; apply repeat_spec in Hx; subst; exact I|intros t r []].
    - intros c c' (HT & HH) Hs. destruct Hs as
     [t l op Ht Hp ->|t ps e l op k s' ns o thr' Ht Hfr Hd ->|t p l nn ns thr' Ht Hd ->
     |t l op cv k Ht ->|t l op cv k k' Ht Hk ->|t l op cv k k' Ht Hk ->|t l op k k' Ht Hk ->];
      simpl; pose proof (Forall_nth_error HT Ht) as Hx; simpl in Hx.
      + split; [apply Forall_upd; auto; intros ->; discriminate|].
        intros t' r [Hi|Hi]; [discriminate|exact (HH _ _ Hi)].
      + assert (HT' : Forall (fun x : tstat (qk V) (qop V) scv unit =>
          match x with Ready _ _ op _ | Asleep _ op _ _ => op <> QUnderlying | _ => True end) thr').
        { eapply woken_Forall; [eapply deliver_all_woken; eauto| |auto]. intros [] Ha Hb; simpl; auto. }
        destruct o as [r|r ns'|cv k'|k'|]; simpl; (split; [apply Forall_upd; auto; try destruct ns'; simpl; auto|]); auto;
        intros t' r' [Hi|Hi]; [congruence|exact (HH _ _ Hi)|congruence|exact (HH _ _ Hi)].
      + split; auto. apply Forall_upd; [|destruct ns; simpl; auto].
        eapply woken_Forall; [eapply deliver_woken; eauto| |auto]. intros [] Ha Hb; simpl; auto.
      + split; auto. apply Forall_upd; auto.
      + split; auto. apply Forall_upd; auto.
      + split; auto. apply Forall_upd; auto.
      + split; auto. apply Forall_upd; auto. }
  exact (proj2 G).
Qed.

(** ** C08 *)

Theorem C08_fifo : forall (V : Type) (n : nat) (c : fqconf V),
  fq_reachable false n c ->
  q_accepted (hist c) = q_delivered (hist c) ++ fq_stored c.
Proof.
  intros V n c Hr. destruct (QInv_reachable (dv_ok V) Hr) as (_ & (q & Hq & Hh & _) & _).
  rewrite (fifo_ad (no_underlying _ _ _ _ Hr) Hq). destruct Hh as (_ & Hh).
  unfold fq_stored. rewrite Hh. reflexivity.
Qed.
Print Assumptions C08_fifo.

Theorem C08_linearizable : forall (V : Type) (n : nat) (c : fqconf V),
  fq_reachable false n c ->
  uq_history fifo_take holds_list (hist c) (MkU (fq_stored c) (q_cl (sh c))) /\
  ~ In (Crashed (qk V) (qop V) scv unit) (thr c).
Proof.
  intros V n c Hr. split; [|exact (sq_no_crash (dv_ok V) Hr)].
  destruct (QInv_reachable (dv_ok V) Hr) as (_ & (q & Hq & (_ & Hh) & Hc) & _).
  unfold fq_stored. rewrite Hh, Hc. destruct q as [it cl]. simpl.
  revert Hq. apply uq_history_mono. intros d l H. exact (proj2 H).
Qed.
Print Assumptions C08_linearizable.

Example C08_case : exists c : fqconf nat, fq_reachable false 2 c /\
  q_accepted (hist c) = [7; 8; 9] /\ q_delivered (hist c) = [7] /\ fq_stored c = [8; 9].
Proof.
  eexists. split.
  - exists (qcall 0 (QPush 7) ++ qcall 0 (QTryPush 8) ++ qcall 1 QPull ++ qcall 0 (QWaitPush 9)).
    vm_compute. reflexivity.
  - vm_compute. auto.
Qed.

(** ** C09 *)

(** A thread that is asleep when nothing can step on its own found an empty, open queue. *)
Theorem C09_no_lost_wakeup : forall (V : Type) (n : nat) (c : fqconf V) l op cv k,
  fq_reachable false n c -> quiescent c -> In (Asleep l op cv k) (thr c) ->
  fq_stored c = [] /\ q_accepted (hist c) = q_delivered (hist c) /\ ~ q_closed_in (hist c).
Proof.
  intros V n c l op cv k Hr Hq Hin.
  destruct (QInv_reachable (dv_ok V) Hr) as (_ & (q & Hh & Hrep) & HW).
  assert (H1 : 0 < sumw (@slp V) (thr c)).
  { apply In_nth_error in Hin as (i & Hi). pose proof (sumw_ge (@slp V) Hi) as H. simpl in H. lia. }
  destruct (HW H1) as [(He & Hc)|Hp].
  - assert (Hs : fq_stored c = []).
    { unfold fq_stored. destruct Hrep as ((Hwf & _) & _). apply dv_empty_spec; auto. }
    split; [exact Hs|split].
    + rewrite (C08_fifo V n c Hr), Hs, app_nil_r. reflexivity.
    + intros Hcl. apply (history_closed Hh) in Hcl. destruct Hrep as (_ & Hcc). congruence.
  - exfalso. apply sumw_pos in Hp as (i & x & Hx & Hpx). apply nth_error_In in Hx.
    unfold quiescent in Hq. rewrite forallb_forall in Hq. apply Hq in Hx. destruct x; simpl in *; try discriminate; lia.
Qed.
Print Assumptions C09_no_lost_wakeup.

(** Running threads always come to rest, so the situation of the theorem above is reached. *)
Theorem C09_comes_to_rest : forall (V : Type) (n : nat) (c : fqconf V),
  fq_reachable false n c ->
  exists ls c', run (sqprog (dv_container V) false) c ls = Some c' /\ quiescent c' /\
    Forall (fun lb => match lb with LRun _ _ _ _ => True | _ => False end) ls.
Proof.
  intros V n c Hr.
  exact (settles false (@sq_direct V (devector V) (dv_container V) false)
          (fun c' H => sq_no_crash (dv_ok V) H) Hr).
Qed.
Print Assumptions C09_comes_to_rest.

(** Non-vacuity: two pullers asleep on an open empty queue; and the state after a push, where one value was
    delivered and one puller sleeps again. *)
Example C09_case : exists c : fqconf nat, fq_reachable false 3 c /\ quiescent c /\
  In (Asleep tt QPull Cond (KWait QPull)) (thr c) /\ q_delivered (hist c) = [5].
Proof.
  eexists. split; [|split; [|split]].
  - exists (qcall 0 QPull ++ qcall 1 QWaitPull ++ qcall 2 (QPush 5) ++ [LRun _ 1 [] false; LRun _ 0 [] false]).
    vm_compute. reflexivity.
  - vm_compute. reflexivity.
  - vm_compute. auto.
  - reflexivity.
Qed.

(** ** C10 *)

(** The claim is false: after push, push, pull, underlying_queue(), the queue says it is not empty,
    that it has 2^64 - 1 elements, and pulling from it is undefined behaviour. *)
Theorem C10_underlying_refuted : exists (c : fqconf nat) (d : devector nat),
  fq_reachable true 1 c /\ hd_error (hist c) = Some (EDone 0 QUnderlying (QMoved d)) /\
  (exists c1, run (sqprog (dv_container nat) true) c (qcall 0 QEmpty) = Some c1 /\
     hd_error (hist c1) = Some (EDone 0 QEmpty (QBool false))) /\
  (exists c1, run (sqprog (dv_container nat) true) c (qcall 0 QSize) = Some c1 /\
     hd_error (hist c1) = Some (EDone 0 QSize (QSize_ (2 ^ 64 - 1)%Z))) /\
  (exists c1, run (sqprog (dv_container nat) true) c (qcall 0 QTryPull) = Some c1 /\
     nth_error (thr c1) 0 = Some (Crashed _ _ _ _)).
Proof.
  eexists. eexists. split; [|split; [|split; [|split]]].
  - exists (qcall 0 (QPush 1) ++ qcall 0 (QPush 2) ++ qcall 0 QPull ++ qcall 0 QUnderlying).
    vm_compute. reflexivity.
  - vm_compute. reflexivity.
  - eexists. split; vm_compute; reflexivity.
  - eexists. split; vm_compute; reflexivity.
  - eexists. split; vm_compute; reflexivity.
Qed.
Print Assumptions C10_underlying_refuted.

(** What holds: as long as underlying_queue() is only called when nothing has been pulled since the
    queue was last empty, it hands out all elements and the queue goes on as an empty one.
    Missing: the other calls, which are exactly the wrong ones (next theorem). *)
Theorem C10_underlying_partial : forall (V : Type) (n : nat) (c : fqconf V),
  fq_reachable true n c -> moved_untouched (hist c) ->
  uq_history fifo_take holds_list (hist c) (MkU (fq_stored c) (q_cl (sh c))) /\
  ~ In (Crashed (qk V) (qop V) scv unit) (thr c).
Proof.
  intros V n c Hr Hm. destruct (MInv_reachable Hr Hm) as (HT & q & Hq & ((_ & Hh) & Hc) & _).
  split.
  - unfold fq_stored. rewrite Hh, Hc. destruct q as [it cl]. simpl.
    revert Hq. apply uq_history_mono. intros d l H. exact (proj2 H).
  - intros Hin. rewrite Forall_forall in HT. exact (HT _ Hin).
Qed.
Print Assumptions C10_underlying_partial.

(** After any history without an earlier underlying_queue(), calling it when [k > 0] elements have been
    pulled since the queue was last empty leaves a queue that reports not empty and 2^64 - k elements, and
    whose next pull is undefined behaviour. *)
Theorem C10_underlying_wrong : forall (V : Type) (n : nat) (c : fqconf V) m k,
  fq_reachable true n c -> moved_untouched (hist c) ->
  pulled_since_empty (hist c) = (m, S k) -> (Z.of_nat (S k) < 2 ^ 64)%Z ->
  let d' := dv_moved (q_data (sh c)) in
  dv_empty d' = false /\ dv_size d' = (2 ^ 64 - Z.of_nat (S k))%Z /\ dv_pull d' = None.
Proof.
  intros V n c m k Hr Hm Hp Hk. destruct (MInv_reachable Hr Hm) as (_ & q & _ & _ & Hp').
  rewrite Hp in Hp'. injection Hp' as _ Hf. unfold dv_moved, dv_empty, dv_size, dv_pull, dv_at_front; cbn [dv_data dv_front length].
  rewrite <- Hf. split; [reflexivity|]. split; [|reflexivity].
  replace (Z.of_nat 0 - Z.of_nat (S k))%Z with ((2 ^ 64 - Z.of_nat (S k)) + (-1) * 2 ^ 64)%Z by lia.
  rewrite Z.mod_add by lia. apply Z.mod_small. lia.
Qed.
Print Assumptions C10_underlying_wrong.

Example C10_case : exists c : fqconf nat, fq_reachable true 1 c /\ moved_untouched (hist c) /\
  pulled_since_empty (hist c) = (1, 1) /\ exists d, In (EDone 0 QUnderlying (QMoved d)) (hist c) /\ dv_stored d = [1; 2].
Proof.
  eexists. split; [|split; [|split]].
  - exists (qcall 0 (QPush 1) ++ qcall 0 (QPush 2) ++ qcall 0 QUnderlying ++
            qcall 0 (QPush 3) ++ qcall 0 (QPush 4) ++ qcall 0 QPull).
    vm_compute. reflexivity.
  - vm_compute. auto.
  - reflexivity.
  - eexists. split; [vm_compute; auto 20|reflexivity].
Qed.

(** sync_priority_queue keeps its elements in a plain vector, and there the claim is true. *)
Theorem C10_priority_queue : forall (V : Type) (lt : V -> V -> bool) push_heap pop_heap (n : nat) (c : pqconf V),
  PQ_contract lt push_heap pop_heap -> strict_weak lt ->
  pq_reachable push_heap pop_heap true n c ->
  (exists l, Permutation (q_data (sh c)) l /\
     uq_history (greatest_take lt) (@Permutation V) (hist c) (MkU l (q_cl (sh c)))) /\
  ~ In (Crashed (qk V) (qop V) scv unit) (thr c).
Proof.
  intros V lt ph po n c HC HW Hr. pose proof (pq_ok HC HW true) as Hok.
  split; [|exact (sq_no_crash Hok Hr)].
  destruct (QInv_reachable Hok Hr) as (_ & (q & Hq & (_ & Hh) & Hc) & _).
  exists (u_items q). split; auto. rewrite Hc. destruct q as [it cl]. simpl.
  revert Hq. apply uq_history_mono. intros d l H. exact (proj2 H).
Qed.
Print Assumptions C10_priority_queue.

(** ** C11 *)

(** After any sequence of push_back and pop_front that never pops an empty sequence, the devector holds
    what a list holds, and front, back, empty and size say so; copying, or moving to another devector, gives the same
    elements. *)
Theorem C11_devector_is_sequence : forall (V : Type) (ops : list (dv_op V)) (l : list V),
  fold_left seq_do ops (Some []) = Some l -> (Z.of_nat (length l) < 2 ^ 64)%Z ->
  let d := fold_left dv_do ops (dv_new V) in
  dv_stored d = l /\
  dv_at_front d = hd_error l /\
  (forall l' x, l = l' ++ [x] -> dv_back d = Some x) /\
  (dv_empty d = true <-> l = []) /\
  dv_size d = Z.of_nat (length l) /\
  dv_stored (dv_copy d) = l.
Proof.
  intros V ops l Hl Hlen d.
  pose proof (@dv_run_inv V ops (dv_new V) (Some []) (conj (or_introl (conj eq_refl eq_refl)) eq_refl)) as H.
  rewrite Hl in H. fold d in H. destruct H as (Hw & Hs). repeat split.
  - exact Hs.
  - rewrite dv_front_hd, Hs. reflexivity.
  - intros l' x ->. exact (dv_back_spec _ _ _ Hs).
  - intros He. rewrite <- Hs. apply dv_empty_spec; auto.
  - intros ->. apply dv_empty_spec; auto.
  - rewrite (dv_size_spec Hw), Hs. apply Z.mod_small. lia.
  - exact Hs.
Qed.
Print Assumptions C11_devector_is_sequence.

Example C11_case : fold_left seq_do [DPushBack 1; DPushBack 2; DPopFront; DPushBack 3] (Some []) = Some [2; 3] /\
  dv_front (fold_left dv_do [DPushBack 1; DPushBack 2; DPopFront; DPushBack 3] (dv_new nat)) = 1.
Proof. vm_compute. auto. Qed.

(** ** C12 *)

Theorem C12_greatest_first : forall (V : Type) (lt : V -> V -> bool) push_heap pop_heap (n : nat) (c : pqconf V),
  PQ_contract lt push_heap pop_heap -> strict_weak lt ->
  pq_reachable push_heap pop_heap false n c ->
  exists l, Permutation (q_data (sh c)) l /\
    uq_history (greatest_take lt) (@Permutation V) (hist c) (MkU l (q_cl (sh c))) /\
    Permutation (q_accepted (hist c)) (q_delivered (hist c) ++ l) /\
    ~ In (Crashed (qk V) (qop V) scv unit) (thr c).
Proof.
  intros V lt ph po n c HC HW Hr. pose proof (pq_ok HC HW false) as Hok.
  destruct (QInv_reachable Hok Hr) as (_ & (q & Hq & (_ & Hh) & Hc) & _).
  exists (u_items q). split; auto. split; [|split].
  - rewrite Hc. destruct q as [it cl]. simpl.
    revert Hq. apply uq_history_mono. intros d l H. exact (proj2 H).
  - exact (greatest_ad (no_underlying _ _ _ _ Hr) Hq).
  - exact (sq_no_crash Hok Hr).
Qed.
Print Assumptions C12_greatest_first.

(** Wake-ups of the priority queue. *)
Theorem C12_no_lost_wakeup : forall (V : Type) (lt : V -> V -> bool) push_heap pop_heap (n : nat) (c : pqconf V) l op cv k,
  PQ_contract lt push_heap pop_heap -> strict_weak lt ->
  pq_reachable push_heap pop_heap false n c -> quiescent c -> In (Asleep l op cv k) (thr c) ->
  q_data (sh c) = [] /\ Permutation (q_accepted (hist c)) (q_delivered (hist c)) /\ ~ q_closed_in (hist c).
Proof.
  intros V lt ph po n c l op cv k HC HW Hr Hq Hin. pose proof (pq_ok HC HW false) as Hok.
  destruct (QInv_reachable Hok Hr) as (_ & (q & Hh & Hrep) & HWk).
  assert (H1 : 0 < sumw (@slp V) (thr c)).
  { apply In_nth_error in Hin as (i & Hi). pose proof (sumw_ge (@slp V) Hi) as H. simpl in H. lia. }
  destruct (HWk H1) as [(He & Hc)|Hp].
  - assert (Hs : q_data (sh c) = []) by (simpl in He; destruct (q_data (sh c)); congruence).
    split; [exact Hs|split].
    + rewrite (greatest_ad (no_underlying _ _ _ _ Hr) Hh). destruct Hrep as ((_ & Hperm) & _).
      rewrite Hs in Hperm. apply Permutation_nil in Hperm. rewrite Hperm, app_nil_r. reflexivity.
    + intros Hcl. apply (history_closed Hh) in Hcl. destruct Hrep as (_ & Hcc). congruence.
  - exfalso. apply sumw_pos in Hp as (i & x & Hx & Hpx). apply nth_error_In in Hx.
    unfold quiescent in Hq. rewrite forallb_forall in Hq. apply Hq in Hx. destruct x; simpl in *; try discriminate; lia.
Qed.
Print Assumptions C12_no_lost_wakeup.

(** Non-vacuity: functions meeting the contract exist, and a run in which the greatest comes first. *)
Example C12_case : PQ_contract Nat.ltb sort_desc ex_pop_heap /\ strict_weak Nat.ltb /\
  exists c : pqconf nat, pq_reachable sort_desc ex_pop_heap false 1 c /\
    q_accepted (hist c) = [3; 9; 5] /\ q_delivered (hist c) = [9; 5].
Proof.
  split; [exact sort_contract|]. split; [exact ltb_strict_weak|].
  eexists. split.
  - exists (qcall 0 (QPush 3) ++ qcall 0 (QPush 9) ++ qcall 0 (QPush 5) ++ qcall 0 QPull ++ qcall 0 QPullUntil).
    vm_compute. reflexivity.
  - vm_compute. auto.
Qed.
