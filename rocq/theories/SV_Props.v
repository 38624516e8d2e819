(** * Theorems about synchronized_value (C38) *)

From Verif Require Import SV_Model SV_Spec SV_Proofs.
Set Implicit Arguments.

(** C38: in every execution of any number of threads every operation takes effect at one point between its call and its
    return, its result is the one of the atomic operation at that point, and, whenever nobody is inside a critical section,
    the objects hold what the atomic operations performed in that order leave.  An operation that throws (because a
    lock() threw) has no effect. *)
Theorem synchronized_value_atomic (init : vals) (todos : list (list vop)) (s : vsys) :
  vreach init todos s ->
  results_ok init (v_hist s) /\
  (forall t x, nth_error (v_thr s) t = Some x -> exists p, follows t (v_hist s) p) /\
  ((forall t op b cs, nth_error (v_thr s) t <> Some (VBody op b cs)) -> forall x, v_val s x = replay init (v_hist s) x).
Proof.
  intros Hr. destruct (InvV_reach Hr) as (_ & Hv & Hres). split; [exact Hres|]. split.
  - intros t x Hx. exists (prog_of x). exact (@follows_reach _ _ _ _ _ Hr Hx).
  - intros Hn x. apply Hv. intros (t & op & b & cs & Ht & _). exact (Hn _ _ _ _ Ht).
Qed.
Print Assumptions synchronized_value_atomic.

(** C38: two threads inside critical sections work on different objects. *)
Theorem synchronized_value_exclusive (init : vals) (todos : list (list vop)) (s : vsys) t u op b cs op' b' cs' x :
  vreach init todos s -> nth_error (v_thr s) t = Some (VBody op b cs) -> nth_error (v_thr s) u = Some (VBody op' b' cs') ->
  t <> u -> In x (args (lock_of op)) -> ~ In x (args (lock_of op')).
Proof. intros Hr. exact (@body_args_disjoint s t u op b cs op' b' cs' x (InvO_reach Hr)). Qed.
Print Assumptions synchronized_value_exclusive.

(** C38: no deadlock.  Whoever waits holds nothing and waits for ... *)
Theorem synchronized_value_no_cycle_partial (init : vals) (todos : list (list vop)) (s : vsys) (t m : nat) :
  vreach init todos s -> vwaits s t m ->
  (forall m', v_own s m' <> Some t) /\ exists t', v_own s m = Some t' /\ t' <> t /\ vcan s t' /\ forall m', ~ vwaits s t' m'.
Proof.
  intros Hr Hw. assert (Hn := @vwaiting_holds_nothing _ _ _ _ _ Hr Hw). split; [exact Hn|].
  destruct Hw as (op & h & cs & tr & Ht & Hp & Ho). destruct (v_own s m) as [t'|] eqn:E; [|congruence].
  exists t'. split; [reflexivity|]. split; [intros ->; now apply (Hn m)|]. split; [exact (@vholder_can _ _ _ _ _ Hr E)|].
  intros m' Hw'. exact (@vwaiting_holds_nothing _ _ _ _ _ Hr Hw' m E).
Qed.
Print Assumptions synchronized_value_no_cycle_partial.

(** ... as long as some thread is not done some thread can take a step. *)
Theorem synchronized_value_deadlock_free_partial (init : vals) (todos : list (list vop)) (s : vsys) :
  vreach init todos s -> (forall t, t < length (v_thr s) -> vdone s t) \/
  exists t s', vcan s t /\ vstep s s' /\ forall u, u <> t -> nth_error (v_thr s') u = nth_error (v_thr s) u.
Proof.
  intros Hr.
  assert (Hall : forall n, n <= length (v_thr s) -> (forall t, t < n -> vdone s t) \/ exists t, vcan s t).
  { induction n as [|n IH]; intros Hn; [left; intros t Ht; lia|].
    destruct IH as [IH|IH]; [lia| |auto].
    destruct (nth_error (v_thr s) n) as [x|] eqn:Hx; [|apply nth_error_None in Hx; lia].
    destruct (@vwaits_or_can s n x Hx) as [Hd|[Hc|[m Hw]]].
    - left. intros t Ht. destruct (Nat.eq_dec t n) as [->|Hne]; [exact Hd|]. apply IH. lia.
    - right. eauto.
    - right. destruct (synchronized_value_no_cycle_partial Hr Hw) as (_ & t' & _ & _ & Hc & _). eauto. }
  destruct (Hall (length (v_thr s)) (le_n _)) as [H|[t Hc]]; [left; exact H|].
  right. destruct (@vcan_steps s t Hc) as (s' & Hs & Hu). exists t, s'. auto.
Qed.
Print Assumptions synchronized_value_deadlock_free_partial.

(** The full statement would add that every operation can finish.  It is false: comparing an object with itself never
    returns, in any execution (the two guards lock the same mutex twice; F11). *)
Theorem synchronized_value_compare_self_refuted (init : vals) (todos : list (list vop)) (s : vsys) t f i r :
  vreach init todos s -> ~ In (VCommit t (OCmp f i i) r) (v_hist s) /\ forall b cs, nth_error (v_thr s) t <> Some (VBody (OCmp f i i) b cs).
Proof. intros Hr. split; [exact (@self_no_commit _ _ _ Hr t f i r)|]. intros b cs. exact (@self_no_body _ _ _ _ _ _ _ _ Hr). Qed.
Print Assumptions synchronized_value_compare_self_refuted.

(** What holds: every other operation, also assignment and swap of an object with itself, can finish, by steps of its thread alone, when nobody has locked its objects;
    it then has its result and its effect, and everything is unlocked. *)
Inductive alone (t : nat) (s : vsys) : vsys -> Prop :=
| al_refl : alone t s s
| al_step s' s'' : alone t s s' -> vstep s' s'' -> (forall u, u <> t -> nth_error (v_thr s'') u = nth_error (v_thr s') u) -> alone t s s''.
Definition objects (op : vop) : list nat :=
  match op with OGet i | OSet i _ | OSwapT i _ | OApply i _ => [i] | OAssign i j | OSwap i j | OCmp _ i j => [i; j] end.
Lemma al_to t s o v th h o' v' y h' x : alone t s (MkV o v th h) -> nth_error th t = Some x ->
  vstep (MkV o v th h) (MkV o' v' (vset th t y) h') ->
  alone t s (MkV o' v' (vset th t y) h') /\ nth_error (vset th t y) t = Some y.
Proof.
  intros A Hx S. split; [|exact (vset_same _ _ _ Hx)]. eapply al_step; [exact A|exact S|].
  cbn. intros u Hu. apply vset_other. congruence.
Qed.
(** taking the locks *)
Lemma al_lock t s o v th h op cs : alone t s (MkV o v th h) -> nth_error th t = Some (VLock op [] cs) -> (forall f i, op <> OCmp f i i) ->
  (forall m, In m (args (lock_of op)) -> o m = None) ->
  exists o1 th1, alone t s (MkV o1 v th1 h) /\ nth_error th1 t = Some (VBody op B0 cs) /\ forall m, ~ In m (args (lock_of op)) -> o1 m = o m.
Proof.
  intros A Hx Hn Ho.
  assert (K : lock_of op = CRange [] \/ (exists i, lock_of op = CLock [i]) \/ exists i j, i <> j /\ lock_of op = CLock [i; j]).
  { destruct op as [i|i w|i w|i f|i j|i j|f i j]; cbn [lock_of]; eauto.
    - destruct (Nat.eqb_spec i j); eauto 6.
    - destruct (Nat.eqb_spec i j); eauto 6.
    - right. right. exists i, j. split; [|reflexivity]. intros ->. exact (Hn f j eq_refl). }
  destruct K as [E|[(i & E)|(i & j & Hij & E)]]; rewrite E in *; cbn [args] in *.
  - destruct (al_to _ A Hx (@vs_locked (MkV o v th h) t op [] cs _ _ Hx ltac:(rewrite E; reflexivity))) as [A1 X1]. eauto 8.
  - assert (Oi : o i = None) by (apply Ho; cbn; auto).
    destruct (al_to _ A Hx (@vs_act (MkV o v th h) t op [] cs (ALock i) [] AOk _ Hx ltac:(rewrite E; reflexivity) (@ans_lock o t i Oi))) as [A1 X1].
    cbn [app] in A1, X1.
    destruct (al_to _ A1 X1 (@vs_locked (MkV _ v _ h) t op [AOk] cs _ _ X1 ltac:(rewrite E; reflexivity))) as [A2 X2].
    eexists _, _. split; [exact A2|]. split; [exact X2|]. intros m Hm. cbn [v_own]. unfold set_owner. cbn [v_own]. destruct (Nat.eqb_spec i m); cbn in Hm; [tauto|]; destruct (Nat.eqb_spec m i); [subst; tauto|reflexivity].
  - assert (Oi : o i = None) by (apply Ho; cbn; auto). assert (Oj : o j = None) by (apply Ho; cbn; auto).
    destruct (al_to _ A Hx (@vs_act (MkV o v th h) t op [] cs (ALock i) [] AOk _ Hx ltac:(rewrite E; reflexivity) (@ans_lock o t i Oi))) as [A1 X1].
    cbn [app] in A1, X1.
    assert (Oj1 : set_owner o i (Some t) j = None).
    { unfold set_owner. destruct (Nat.eqb_spec i j); [congruence|]. try (destruct (Nat.eqb_spec j i); [congruence|]). exact Oj. }
    destruct (al_to _ A1 X1 (@vs_act (MkV _ v _ h) t op [AOk] cs (ATry j) _ AOk _ X1 ltac:(rewrite E; reflexivity) (@ans_try _ t j Oj1))) as [A2 X2].
    cbn [app] in A2, X2.
    destruct (al_to _ A2 X2 (@vs_locked (MkV _ v _ h) t op [AOk; AOk] cs _ _ X2 ltac:(rewrite E; reflexivity))) as [A3 X3].
    eexists _, _. split; [exact A3|]. split; [exact X3|]. intros m Hm. cbn [v_own]. unfold set_owner. cbn [v_own]. cbn in Hm.
    repeat match goal with |- context [?a =? ?b] => destruct (Nat.eqb_spec a b); [subst; tauto|] end. reflexivity.
Qed.
(** the critical section *)
Lemma al_body t s o v th h op cs : alone t s (MkV o v th h) -> nth_error th t = Some (VBody op B0 cs) ->
  exists v1 th1, let r := snd (atomic op v) in alone t s (MkV o v1 th1 (VCommit t op r :: h)) /\
    nth_error th1 t = Some (VUnlock op r (rev (args (lock_of op))) cs) /\ forall x, v1 x = fst (atomic op v) x.
Proof.
  intros A X.
  assert (More1 : forall v th b b' v', alone t s (MkV o v th h) -> nth_error th t = Some (VBody op b cs) -> bstep op b v = (More b', v') ->
    exists th', alone t s (MkV o v' th' h) /\ nth_error th' t = Some (VBody op b' cs)).
  { intros v2 th2 b b' v' A2 X2 E. eexists. exact (al_to _ A2 X2 (@vs_body (MkV o v2 th2 h) t op b cs b' v' X2 E)). }
  assert (Done1 : forall v th b r v', alone t s (MkV o v th h) -> nth_error th t = Some (VBody op b cs) -> bstep op b v = (Done r, v') ->
    exists th', alone t s (MkV o v' th' (VCommit t op r :: h)) /\ nth_error th' t = Some (VUnlock op r (rev (args (lock_of op))) cs)).
  { intros v2 th2 b r v' A2 X2 E. eexists. exact (al_to _ A2 X2 (@vs_commit (MkV o v2 th2 h) t op b cs r v' X2 E)). }
  destruct op as [i|i w|i w|i f|i j|i j|f i j]; cbn [atomic fst snd].
  - destruct (Done1 _ _ _ _ _ A X eq_refl) as (th1 & A1 & X1). eauto 8.
  - destruct (Done1 _ _ _ _ _ A X eq_refl) as (th1 & A1 & X1). eauto 8.
  - destruct (More1 _ _ _ _ _ A X eq_refl) as (th1 & A1 & X1). destruct (Done1 _ _ _ _ _ A1 X1 eq_refl) as (th2 & A2 & X2). eauto 8.
  - destruct (More1 _ _ _ _ _ A X eq_refl) as (th1 & A1 & X1). destruct (Done1 _ _ _ _ _ A1 X1 eq_refl) as (th2 & A2 & X2). eauto 8.
  - destruct (Nat.eqb_spec i j) as [->|Hij].
    + destruct (Done1 v th B0 VUnit v A X) as (th1 & A1 & X1); [cbn; rewrite Nat.eqb_refl; reflexivity|].
      exists v, th1. split; [exact A1|]. split; [exact X1|]. intros x. symmetry. apply write_self.
    + destruct (More1 v th B0 (B1 (v j)) v A X) as (th1 & A1 & X1); [cbn; destruct (Nat.eqb_spec i j); [contradiction|reflexivity]|].
      destruct (Done1 _ _ _ _ _ A1 X1 eq_refl) as (th2 & A2 & X2). eauto 8.
  - destruct (Nat.eqb_spec i j) as [->|Hij].
    + destruct (Done1 v th B0 VUnit v A X) as (th1 & A1 & X1); [cbn; rewrite Nat.eqb_refl; reflexivity|].
      exists v, th1. split; [exact A1|]. split; [exact X1|]. intros x. unfold write. destruct (Nat.eqb_spec j x); congruence.
    + destruct (More1 v th B0 (B1 (v i)) v A X) as (th1 & A1 & X1); [cbn; destruct (Nat.eqb_spec i j); [contradiction|reflexivity]|].
      destruct (More1 _ _ _ _ _ A1 X1 eq_refl) as (th2 & A2 & X2). destruct (More1 _ _ _ _ _ A2 X2 eq_refl) as (th3 & A3 & X3).
      destruct (Done1 _ _ _ _ _ A3 X3 eq_refl) as (th4 & A4 & X4). eauto 8.
  - destruct (More1 _ _ _ _ _ A X eq_refl) as (th1 & A1 & X1). destruct (Done1 _ _ _ _ _ A1 X1 eq_refl) as (th2 & A2 & X2). eauto 8.
Qed.
(** unlocking *)
Lemma al_unlock t s v h op r cs : forall ms o th, alone t s (MkV o v th h) -> nth_error th t = Some (VUnlock op r ms cs) ->
  exists o1 th1, alone t s (MkV o1 v th1 (VRet t op r :: h)) /\ nth_error th1 t = Some (VIdle cs) /\
    (forall m, In m ms -> o1 m = None) /\ forall m, ~ In m ms -> o1 m = o m.
Proof.
  induction ms as [|m ms IH]; intros o th A X.
  - destruct (al_to _ A X (@vs_ret (MkV o v th h) t op r cs X)) as [A1 X1]. eexists _, _. split; [exact A1|]. split; [exact X1|]. split; [intros m []|reflexivity].
  - destruct (al_to _ A X (@vs_unlock (MkV o v th h) t op r m ms cs X)) as [A1 X1].
    destruct (IH _ _ A1 X1) as (o1 & th1 & A2 & X2 & H1 & H2). exists o1, th1. split; [exact A2|]. split; [exact X2|].
    assert (S : forall k, set_owner o m None k = if k =? m then None else o k).
    { intros k. unfold set_owner. try rewrite (Nat.eqb_sym m k). reflexivity. }
    split.
    + intros k Hk. destruct (in_dec Nat.eq_dec k ms) as [J|J]; [auto|]. destruct Hk as [->|Hk]; [|contradiction]. rewrite (H2 _ J), S, Nat.eqb_refl. reflexivity.
    + intros k Hk. rewrite H2, S by (intros J; apply Hk; right; exact J). destruct (Nat.eqb_spec k m) as [->|]; [|reflexivity]. exfalso. apply Hk. left. reflexivity.
Qed.

Theorem synchronized_value_finishes_partial (init : vals) (todos : list (list vop)) (s : vsys) t op cs :
  vreach init todos s -> nth_error (v_thr s) t = Some (VIdle (op :: cs)) -> (forall f i, op <> OCmp f i i) -> (forall m, In m (objects op) -> v_own s m = None) ->
  exists s' r, alone t s s' /\ nth_error (v_thr s') t = Some (VIdle cs) /\ v_hist s' = VRet t op r :: VCommit t op r :: VCall t op :: v_hist s /\
    r = snd (atomic op (v_val s)) /\ (forall x, v_val s' x = fst (atomic op (v_val s)) x) /\ (forall m, v_own s' m = v_own s m).
Proof.
  intros _ X Hn Ho. assert (Ho' : forall m, In m (args (lock_of op)) -> v_own s m = None).
  { intros m Hm. apply Ho. destruct op; cbn in *; try exact Hm; destruct (_ =? _) in Hm; cbn in Hm; tauto. }
  destruct s as [o v th h]. cbn [v_own v_val v_thr v_hist] in *.
  destruct (al_to _ (al_refl t _) X (@vs_call (MkV o v th h) t op cs X)) as [A1 X1].
  destruct (al_lock A1 X1 Hn Ho') as (o1 & th1 & A2 & X2 & H2).
  destruct (al_body A2 X2) as (v1 & th2 & A3 & X3 & H3).
  destruct (al_unlock A3 X3) as (o2 & th3 & A4 & X4 & H4 & H5).
  eexists _, _. split; [exact A4|]. split; [exact X4|]. split; [reflexivity|]. split; [reflexivity|]. split; [exact H3|].
  cbn. intros m. destruct (in_dec Nat.eq_dec m (args (lock_of op))) as [J|J].
  - transitivity (@None nat); [apply H4; apply in_rev in J; exact J|symmetry; exact (Ho' m J)].
  - transitivity (o1 m); [|exact (H2 m J)]. apply H5. intros K. apply J. apply in_rev. exact K.
Qed.
Print Assumptions synchronized_value_finishes_partial.
(** For instance a swap of object 1 with itself, beside a thread that will set it. *)
Example finishes_case : vreach (fun i => i) [[OSwap 1 1]; [OSet 1 5]] (MkV (fun _ => None) (fun i => i) (map VIdle [[OSwap 1 1]; [OSet 1 5]]) []) /\
  (forall f i, OSwap 1 1 <> OCmp f i i).
Proof. split; [constructor|discriminate]. Qed.

(** A swap and a set of the same object: thread 0 is in the middle of its swap (object 0 already has the new value). *)
Definition ops0 : list (list vop) := [[OSwap 0 1]; [OSet 0 9]].
Definition init0 : vals := fun i => 10 + i.

Example mid_swap : exists s, vreach init0 ops0 s /\ nth_error (v_thr s) 0 = Some (VBody (OSwap 0 1) (B3 10) []) /\ v_val s 0 = 11 /\ v_val s 1 = 11.
Proof.
  set (s0 := MkV (fun _ => None) init0 (map VIdle ops0) []).
  assert (H0 : vreach init0 ops0 s0) by constructor.
  assert (H1 := vr_step H0 (@vs_call s0 0 (OSwap 0 1) [] eq_refl)).
  match type of H1 with vreach _ _ ?s => set (s1 := s) in * end.
  assert (H2 := vr_step H1 (@vs_act s1 0 (OSwap 0 1) [] [] (ALock 0) [] AOk _ eq_refl eq_refl (@ans_lock (v_own s1) 0 0 eq_refl))).
  match type of H2 with vreach _ _ ?s => set (s2 := s) in * end.
  assert (H3 := vr_step H2 (@vs_act s2 0 (OSwap 0 1) [AOk] [] (ATry 1) [(ALock 0, AOk)] AOk _ eq_refl eq_refl (@ans_try (v_own s2) 0 1 eq_refl))).
  match type of H3 with vreach _ _ ?s => set (s3 := s) in * end.
  assert (H4 := vr_step H3 (@vs_locked s3 0 (OSwap 0 1) [AOk; AOk] [] [] _ eq_refl eq_refl)).
  match type of H4 with vreach _ _ ?s => set (s4 := s) in * end.
  assert (H5 := vr_step H4 (@vs_body s4 0 (OSwap 0 1) B0 [] (B1 10) _ eq_refl eq_refl)).
  match type of H5 with vreach _ _ ?s => set (s5 := s) in * end.
  assert (H6 := vr_step H5 (@vs_body s5 0 (OSwap 0 1) (B1 10) [] (B2 10 11) _ eq_refl eq_refl)).
  match type of H6 with vreach _ _ ?s => set (s6 := s) in * end.
  assert (H7 := vr_step H6 (@vs_body s6 0 (OSwap 0 1) (B2 10 11) [] (B3 10) _ eq_refl eq_refl)).
  eexists. split; [exact H7|]. repeat split.
Qed.

(** Two threads inside critical sections on different objects, a third waits for one of them. *)
Definition ops1 : list (list vop) := [[OSwap 0 1]; [OSet 2 9]; [OSet 0 7]].
Example two_inside : exists s, vreach init0 ops1 s /\ nth_error (v_thr s) 0 = Some (VBody (OSwap 0 1) B0 []) /\
  nth_error (v_thr s) 1 = Some (VBody (OSet 2 9) B0 []) /\ vwaits s 2 0.
Proof.
  set (s0 := MkV (fun _ => None) init0 (map VIdle ops1) []).
  assert (H0 : vreach init0 ops1 s0) by constructor.
  assert (H1 := vr_step H0 (@vs_call s0 0 (OSwap 0 1) [] eq_refl)).
  match type of H1 with vreach _ _ ?s => set (s1 := s) in * end.
  assert (H2 := vr_step H1 (@vs_act s1 0 (OSwap 0 1) [] [] (ALock 0) [] AOk _ eq_refl eq_refl (@ans_lock (v_own s1) 0 0 eq_refl))).
  match type of H2 with vreach _ _ ?s => set (s2 := s) in * end.
  assert (H3 := vr_step H2 (@vs_act s2 0 (OSwap 0 1) [AOk] [] (ATry 1) [(ALock 0, AOk)] AOk _ eq_refl eq_refl (@ans_try (v_own s2) 0 1 eq_refl))).
  match type of H3 with vreach _ _ ?s => set (s3 := s) in * end.
  assert (H4 := vr_step H3 (@vs_locked s3 0 (OSwap 0 1) [AOk; AOk] [] [] _ eq_refl eq_refl)).
  match type of H4 with vreach _ _ ?s => set (s4 := s) in * end.
  assert (H5 := vr_step H4 (@vs_call s4 1 (OSet 2 9) [] eq_refl)).
  match type of H5 with vreach _ _ ?s => set (s5 := s) in * end.
  assert (H6 := vr_step H5 (@vs_act s5 1 (OSet 2 9) [] [] (ALock 2) [] AOk _ eq_refl eq_refl (@ans_lock (v_own s5) 1 2 eq_refl))).
  match type of H6 with vreach _ _ ?s => set (s6 := s) in * end.
  assert (H7 := vr_step H6 (@vs_locked s6 1 (OSet 2 9) [AOk] [] [] _ eq_refl eq_refl)).
  match type of H7 with vreach _ _ ?s => set (s7 := s) in * end.
  assert (H8 := vr_step H7 (@vs_call s7 2 (OSet 0 7) [] eq_refl)).
  eexists. split; [exact H8|]. split; [reflexivity|]. split; [reflexivity|].
  exists (OSet 0 7), [], []. eexists. split; [reflexivity|]. split; [reflexivity|]. discriminate.
Qed.
