(** * Proofs about synchronized_value *)

From Verif Require Export SV_Spec LA_Proofs LA_SysProofs.
Set Implicit Arguments.

Lemma vset_same l i x y : nth_error l i = Some y -> nth_error (vset l i x) i = Some x.
Proof. revert i. induction l as [|z l IH]; intros [|i]; simpl; auto; discriminate. Qed.
Lemma vset_other l i j x : i <> j -> nth_error (vset l i x) j = nth_error l j.
Proof. revert i j. induction l as [|z l IH]; intros [|i] [|j]; simpl; auto; congruence. Qed.

Definition vargs (op : vop) : list nat := args (lock_of op).

Definition vheld (x : vthread) (m : nat) : Z :=
  match x with
  | VIdle _ => 0%Z
  | VLock op h _ => held m (trace_of (run_lock (lock_of op) h))
  | VBody op _ _ => occurs (vargs op) m
  | VUnlock _ _ ms _ => occurs ms m
  end.

Definition InvO (s : vsys) : Prop :=
  forall t x m, nth_error (v_thr s) t = Some x -> vheld x m = if hit (v_own s m) t then 1%Z else 0%Z.

Lemma InvO_change s t x y o' v' h' :
  InvO s -> nth_error (v_thr s) t = Some x ->
  (forall m, (o' m = v_own s m /\ vheld y m = vheld x m) \/
             (v_own s m = None /\ o' m = Some t /\ vheld y m = 1%Z) \/
             (hit (v_own s m) t = true /\ o' m = None /\ vheld y m = 0%Z)) ->
  InvO (MkV o' v' (vset (v_thr s) t y) h').
Proof.
  intros HI Hx Hc t' z m Hz. simpl in Hz. cbn [v_own].
  destruct (Nat.eq_dec t t') as [<-|Hne].
  - rewrite (vset_same _ _ y Hx) in Hz. injection Hz as <-.
    destruct (Hc m) as [[Ho Hh]|[(Hn & Ho & Hh)|(Hn & Ho & Hh)]].
    + rewrite Hh, Ho. exact (HI t x m Hx).
    + rewrite Hh, Ho. simpl. now rewrite Nat.eqb_refl.
    + rewrite Hh, Ho. reflexivity.
  - rewrite vset_other in Hz by auto. rewrite (HI t' z m Hz).
    destruct (Hc m) as [[Ho Hh]|[(Hn & Ho & Hh)|(Hn & Ho & Hh)]].
    + now rewrite Ho.
    + rewrite Ho, Hn. simpl. apply Nat.eqb_neq in Hne. now rewrite Hne.
    + rewrite Ho. simpl. destruct (v_own s m) as [t''|]; [|discriminate]. simpl in *.
      apply Nat.eqb_eq in Hn. subst t''. apply Nat.eqb_neq in Hne. now rewrite Hne.
Qed.

Lemma occurs_rev ms m : occurs (rev ms) m = occurs ms m.
Proof. unfold occurs. now rewrite count_occ_rev. Qed.

Lemma run_nil_trace c : trace_of (run_lock c []) = [].
Proof.
  pose proof (run_lock_fuel c []) as Hf. unfold run_lock in *.
  assert (Hg := good_body c (Nat.le_refl (3 + 2 * length (@nil ans) + 2 * length (args c)))).
  destruct Hg as (Hac & _ & _). destruct (acct_nil [] Hac) as [E|E]; [contradiction|exact E].
Qed.

Lemma InvO_step s s' : InvO s -> vstep s s' -> InvO s'.
Proof.
  intros HI Hs.
  destruct Hs as [s t op cs Ht|s t op h cs a tr x o' Ht Hr Ha|s t op h cs h' tr Ht Hr|s t op h cs h' tr Ht Hr
                 |s t op b cs b' v' Ht Hb|s t op b cs r v' Ht Hb|s t op r m ms cs Ht|s t op r cs Ht].
  - eapply InvO_change; eauto. intros m. left. split; [reflexivity|]. cbn [vheld]. now rewrite run_nil_trace.
  - assert (Hn := @run_lock_next (lock_of op) h a tr x Hr).
    assert (Hsp := @lock_all_or_none (lock_of op) h). rewrite Hr in Hsp. destruct Hsp as [Hu Hp].
    assert (Hh : forall m, held m tr = if hit (v_own s m) t then 1%Z else 0%Z).
    { intros m. rewrite <- (HI t _ m Ht). cbn [vheld]. now rewrite Hr. }
    eapply InvO_change; eauto. intros m. cbn [vheld]. rewrite Hn, Hr. cbn [trace_of held].
    destruct Ha as [y Hy|y|y Hy|y|y|y]; simpl.
    + destruct (Nat.eqb y m) eqn:E.
      * apply Nat.eqb_eq in E. subst y. right. left. unfold set_owner. rewrite Nat.eqb_refl, Hh, Hy. simpl. repeat split; reflexivity.
      * left. unfold set_owner. rewrite E. split; reflexivity.
    + left. split; reflexivity.
    + destruct (Nat.eqb y m) eqn:E.
      * apply Nat.eqb_eq in E. subst y. right. left. unfold set_owner. rewrite Nat.eqb_refl, Hh, Hy. simpl. repeat split; reflexivity.
      * left. unfold set_owner. rewrite E. split; reflexivity.
    + left. split; reflexivity.
    + left. split; reflexivity.
    + simpl in Hp. rewrite Hh in Hp. destruct (hit (v_own s y) t) eqn:E; [|lia].
      destruct (Nat.eqb y m) eqn:E2.
      * apply Nat.eqb_eq in E2. subst y. right. right. unfold set_owner. rewrite Nat.eqb_refl, Hh, E. repeat split; lia.
      * left. unfold set_owner. rewrite E2. split; reflexivity.
  - assert (Hsp := @lock_all_or_none (lock_of op) h). rewrite Hr in Hsp. destruct Hsp as [Hu Hp].
    eapply InvO_change; eauto. intros m. left. split; [reflexivity|]. cbn [vheld]. rewrite Hr. cbn [trace_of]. now rewrite Hp.
  - assert (Hsp := @lock_all_or_none (lock_of op) h). rewrite Hr in Hsp. destruct Hsp as [Hu Hp].
    eapply InvO_change; eauto. intros m. left. split; [reflexivity|]. cbn [vheld]. rewrite Hr. cbn [trace_of]. now rewrite Hp.
  - eapply InvO_change; eauto.
  - eapply InvO_change; eauto. intros m. left. split; [reflexivity|]. cbn [vheld]. now rewrite occurs_rev.
  - eapply InvO_change; eauto. intros y. cbn [vheld].
    assert (Hh : forall x, occurs (m :: ms) x = if hit (v_own s x) t then 1%Z else 0%Z).
    { intros x. rewrite <- (HI t _ x Ht). reflexivity. }
    destruct (Nat.eqb m y) eqn:E.
    + apply Nat.eqb_eq in E. subst y. right. right.
      assert (Hm := Hh m). rewrite occurs_cons in Hm. unfold c1 in Hm. rewrite Nat.eqb_refl in Hm.
      pose proof (occurs_nonneg ms m). unfold set_owner. rewrite Nat.eqb_refl.
      destruct (hit (v_own s m) t) eqn:E; [|lia]. repeat split; lia.
    + left. unfold set_owner. rewrite E. split; [reflexivity|]. rewrite occurs_cons. unfold c1. rewrite E. lia.
  - eapply InvO_change; eauto.
Qed.

Lemma InvO_reach init todos s : vreach init todos s -> InvO s.
Proof.
  induction 1 as [|s s' _ IH Hs].
  - intros t x m Hx. simpl in *. rewrite nth_error_map in Hx. destruct (nth_error todos t); [|discriminate].
    injection Hx as <-. reflexivity.
  - exact (InvO_step IH Hs).
Qed.

Lemma occurs_In ms x : In x ms -> (0 < occurs ms x)%Z.
Proof. intros H. unfold occurs. apply (count_occ_In Nat.eq_dec) in H. lia. Qed.

(** A thread in its critical section owns its mutexes; so two such threads work on different objects. *)
Lemma body_owns s t op b cs x : InvO s -> nth_error (v_thr s) t = Some (VBody op b cs) -> In x (vargs op) -> v_own s x = Some t.
Proof.
  intros HI Ht Hin. pose proof (HI t _ x Ht) as H. cbn [vheld] in H. apply occurs_In in Hin.
  destruct (v_own s x) as [t'|]; simpl in H; [|lia]. destruct (Nat.eqb t' t) eqn:E; [|lia]. apply Nat.eqb_eq in E. congruence.
Qed.

(** ** Values *)
Definition body_ok (op : vop) (b : body) (val R : vals) : Prop :=
  match op, b with
  | _, B0 => True
  | OSwapT i _, B1 t | OApply i _, B1 t | OCmp _ i _, B1 t => t = R i
  | OAssign i j, B1 t => i <> j /\ t = R j
  | OSwap i j, B1 t1 => i <> j /\ t1 = R i
  | OSwap i j, B2 t1 t2 => i <> j /\ t1 = R i /\ t2 = R j
  | OSwap i j, B3 t1 => i <> j /\ t1 = R i /\ val i = R j
  | _, _ => False
  end.

(** the object whose new value is already there, before the commit *)
Definition ahead (op : vop) (b : body) (x : nat) : Prop := match op, b with OSwap i _, B3 _ => x = i | _, _ => False end.
Definition dirty (s : vsys) (x : nat) : Prop :=
  exists t op b cs, nth_error (v_thr s) t = Some (VBody op b cs) /\ ahead op b x.

Definition InvV (init : vals) (s : vsys) : Prop :=
  (forall t op b cs, nth_error (v_thr s) t = Some (VBody op b cs) -> body_ok op b (v_val s) (replay init (v_hist s))) /\
  (forall x, ~ dirty s x -> v_val s x = replay init (v_hist s) x) /\
  results_ok init (v_hist s).

Lemma vargs2 i j : i <> j -> vargs (OSwap i j) = [i; j] /\ vargs (OAssign i j) = [i; j].
Proof. intros H. unfold vargs. simpl. apply Nat.eqb_neq in H. now rewrite H. Qed.

Lemma ahead_arg op b val R x : body_ok op b val R -> ahead op b x -> In x (vargs op).
Proof.
  destruct op as [i|i v|i v|i f|i j|i j|f i j], b; simpl; try contradiction. intros (Hne & _) ->.
  destruct (vargs2 Hne) as [-> _]. simpl. auto.
Qed.

Lemma dirty_inv init s t op b cs x :
  InvO s -> InvV init s -> nth_error (v_thr s) t = Some (VBody op b cs) -> In x (vargs op) -> dirty s x -> ahead op b x.
Proof.
  intros HO (Hb & _) Ht Hin (u & op' & b' & cs' & Hu & Ha).
  assert (H1 : v_own s x = Some t) by (eapply body_owns; eauto).
  assert (H2 : v_own s x = Some u) by (eapply body_owns; eauto; eapply ahead_arg; eauto).
  assert (u = t) by congruence. subst u. rewrite Ht in Hu. injection Hu as <- <- <-. exact Ha.
Qed.

Lemma write_same s i v : write s i v i = v.
Proof. unfold write. now rewrite Nat.eqb_refl. Qed.
Lemma write_other s i v x : i <> x -> write s i v x = s x.
Proof. unfold write. intros H. apply Nat.eqb_neq in H. now rewrite H. Qed.
Lemma write_self s i x : write s i (s i) x = s x.
Proof. unfold write. destruct (Nat.eqb_spec i x); congruence. Qed.

Lemma atomic_frame op s x : ~ In x (vargs op) -> fst (atomic op s) x = s x.
Proof.
  destruct op as [i|i v|i v|i f|i j|i j|f i j]; unfold vargs; simpl; auto; intros H.
  - apply write_other. intuition.
  - apply write_other. intuition.
  - apply write_other. intuition.
  - destruct (Nat.eqb_spec i j) as [->|Hne]; simpl in H.
    + apply write_self.
    + apply write_other. intuition.
  - destruct (Nat.eqb_spec i j) as [->|Hne]; simpl in H.
    + unfold write. destruct (Nat.eqb_spec j x); congruence.
    + rewrite !write_other; intuition.
Qed.

Lemma body_ok_frame op b val R val' R' :
  body_ok op b val R -> (forall x, In x (vargs op) -> val' x = val x /\ R' x = R x) -> body_ok op b val' R'.
Proof.
  intros H Hf.
  destruct op as [i|i v|i v|i f|i j|i j|f i j], b; simpl in *; auto;
    repeat match goal with
           | H : _ /\ _ |- _ => destruct H
           end; subst; unfold vargs in Hf; simpl in Hf;
    try (match goal with H : _ <> _ |- _ => pose proof H as Hne; apply Nat.eqb_neq in Hne; rewrite Hne in Hf; simpl in Hf end);
    repeat split; auto; try (symmetry; apply Hf; auto; fail).
  - destruct (Hf i (or_introl eq_refl)) as [-> _]. destruct (Hf j (or_intror (or_introl eq_refl))) as [_ ->]. auto.
Qed.

Lemma body_args_disjoint s t u op b cs op' b' cs' x :
  InvO s -> nth_error (v_thr s) t = Some (VBody op b cs) -> nth_error (v_thr s) u = Some (VBody op' b' cs') -> t <> u ->
  In x (vargs op) -> ~ In x (vargs op').
Proof.
  intros HO Ht Hu Hne H1 H2. assert (E1 : v_own s x = Some t) by (eapply body_owns; eauto). assert (E2 : v_own s x = Some u) by (eapply body_owns; eauto). congruence.
Qed.

(** One step of the critical section against the atomic operation. *)
Lemma bstep_more op b val R b' v' :
  body_ok op b val R -> (forall x, In x (vargs op) -> ~ ahead op b x -> val x = R x) -> bstep op b val = (More b', v') ->
  body_ok op b' v' R /\ (forall x, ~ In x (vargs op) -> v' x = val x) /\
  (forall x, In x (vargs op) -> ~ ahead op b' x -> v' x = R x).
Proof.
  intros Hok Hv Hs.
  destruct op as [i|i v|i v|i f|i j|i j|f i j], b; simpl in Hs; try discriminate;
    try (destruct (Nat.eqb_spec i j) as [Heq|Hne]; [discriminate|]); injection Hs as <- <-; cbn [body_ok ahead] in *.
  - split; [apply Hv; unfold vargs; simpl; auto|]. auto.
  - split; [apply Hv; unfold vargs; simpl; auto|]. auto.
  - destruct (vargs2 Hne) as [_ E]. rewrite E in *. split; [split; auto; apply Hv; simpl; auto|]. auto.
  - destruct (vargs2 Hne) as [E _]. rewrite E in *. split; [split; auto; apply Hv; simpl; auto|]. auto.
  - destruct Hok as [Hne Ht]. destruct (vargs2 Hne) as [E _]. rewrite E in *.
    split; [split; [auto|split; [auto|]]; apply Hv; simpl; auto|]. auto.
  - destruct Hok as (Hne & H1 & H2). destruct (vargs2 Hne) as [E _]. rewrite E in *.
    split; [|split].
    + split; [auto|]. split; [auto|]. now rewrite write_same.
    + intros x Hx. apply write_other. simpl in Hx. intuition.
    + intros x [<-|[<-|[]]] Ha; [congruence|]. rewrite write_other by auto. apply Hv; simpl; auto.
  - split; [apply Hv; unfold vargs; simpl; auto|]. auto.
Qed.

Lemma bstep_done op b val R r v' :
  body_ok op b val R -> (forall x, In x (vargs op) -> ~ ahead op b x -> val x = R x) -> bstep op b val = (Done r, v') ->
  r = snd (atomic op R) /\ (forall x, ~ In x (vargs op) -> v' x = val x) /\
  (forall x, In x (vargs op) -> v' x = fst (atomic op R) x).
Proof.
  intros Hok Hv Hs.
  destruct op as [i|i v|i v|i f|i j|i j|f i j], b; simpl in Hs; try contradiction; cbn [body_ok ahead] in *; try contradiction;
    try (destruct (Nat.eqb_spec i j) as [Heq|Hne]; [|discriminate]); try discriminate; injection Hs as <- <-.
  - split; [simpl; f_equal; apply Hv; unfold vargs; simpl; auto|]. split; auto.
  - split; [reflexivity|]. split.
    + intros x Hx. apply write_other. unfold vargs in Hx. simpl in Hx. intuition.
    + intros x [<-|[]]. simpl. now rewrite !write_same.
  - split; [now rewrite Hok|]. split.
    + intros x Hx. apply write_other. unfold vargs in Hx. simpl in Hx. intuition.
    + intros x [<-|[]]. simpl. now rewrite !write_same.
  - split; [now rewrite Hok|]. split.
    + intros x Hx. apply write_other. unfold vargs in Hx. simpl in Hx. intuition.
    + intros x [<-|[]]. simpl. rewrite !write_same. now rewrite Hok.
  - split; [reflexivity|]. split; [auto|]. subst j. unfold vargs. simpl. rewrite Nat.eqb_refl. simpl. contradiction.
  - destruct Hok as (Hne & H1). destruct (vargs2 Hne) as [_ E]. rewrite E in *. split; [reflexivity|]. split.
    + intros x Hx. apply write_other. simpl in Hx. intuition.
    + intros x Hx. simpl. rewrite H1. unfold write. destruct (Nat.eqb_spec i x); auto.
  - split; [reflexivity|]. split; [auto|]. subst j. unfold vargs. simpl. rewrite Nat.eqb_refl. simpl. contradiction.
  - destruct Hok as (Hne & H1 & H2). destruct (vargs2 Hne) as [E _]. rewrite E in *. split; [reflexivity|]. split.
    + intros x Hx. apply write_other. simpl in Hx. intuition.
    + intros x [<-|[<-|[]]]; simpl.
      * rewrite !write_other by auto. now rewrite write_same.
      * now rewrite !write_same.
  - split; [|split; auto]. simpl. f_equal. rewrite Hok. f_equal. apply Hv; auto. unfold vargs. simpl. auto.
Qed.

Lemma InvV_change init s t x y o' :
  InvV init s -> nth_error (v_thr s) t = Some x -> (forall op b cs, x <> VBody op b cs) ->
  (forall op b cs, y = VBody op b cs -> b = B0) -> forall h',
  replay init h' = replay init (v_hist s) -> (results_ok init (v_hist s) -> results_ok init h') ->
  InvV init (MkV o' (v_val s) (vset (v_thr s) t y) h').
Proof.
  intros (Hb & Hv & Hr) Hx Hnx Hy h' Hh Hres. split; [|split]; cbn [v_val v_hist v_thr]; rewrite ?Hh; auto.
  - intros u op b cs Hu. destruct (Nat.eq_dec t u) as [<-|Hne].
    + rewrite (vset_same _ _ y Hx) in Hu. injection Hu as Hu. rewrite (Hy _ _ _ Hu). destruct op; exact I.
    + rewrite vset_other in Hu by auto. eauto.
  - intros z Hz. apply Hv. intros (u & op & b & cs & Hu & Ha). apply Hz. exists u, op, b, cs. split; auto. cbn [v_thr].
    rewrite vset_other; auto. intros ->. rewrite Hx in Hu. injection Hu as Hu. now apply Hnx in Hu.
Qed.

Lemma InvV_step init s s' : InvO s -> InvV init s -> vstep s s' -> InvV init s'.
Proof.
  intros HO HI Hs.
  destruct Hs as [s t op cs Ht|s t op h cs a tr x o' Ht Hr Ha|s t op h cs h' tr Ht Hr|s t op h cs h' tr Ht Hr
                 |s t op b cs b' v' Ht Hb|s t op b cs r v' Ht Hb|s t op r m ms cs Ht|s t op r cs Ht].
  - eapply InvV_change; eauto; try discriminate; auto.
  - eapply InvV_change; eauto; try discriminate; auto.
  - eapply InvV_change; eauto; try discriminate; auto. intros ? ? ? [=]. auto.
  - eapply InvV_change; eauto; try discriminate; auto.
  - destruct HI as (H1 & H2 & H3). pose proof (H1 _ _ _ _ Ht) as Hok.
    assert (Hv : forall x, In x (vargs op) -> ~ ahead op b x -> v_val s x = replay init (v_hist s) x).
    { intros x Hin Hna. apply H2. intros Hd. apply Hna. eapply (dirty_inv (init := init)); eauto. split; auto. }
    destruct (@bstep_more op b (v_val s) (replay init (v_hist s)) b' v' Hok Hv Hb) as (A1 & A2 & A3).
    split; [|split]; cbn [v_val v_hist v_thr]; auto.
    + intros u op' b'' cs' Hu. destruct (Nat.eq_dec t u) as [<-|Hne].
      * rewrite (vset_same _ _ _ Ht) in Hu. injection Hu as <- <- <-. exact A1.
      * rewrite vset_other in Hu by auto. eapply body_ok_frame; [exact (H1 _ _ _ _ Hu)|].
        intros x Hx. split; [|reflexivity]. apply A2. eapply body_args_disjoint; [exact HO|exact Hu|exact Ht|auto|exact Hx].
    + intros x Hx. destruct (in_dec Nat.eq_dec x (vargs op)) as [Hin|Hin].
      * apply A3; auto. intros Ha. apply Hx. exists t, op, b', cs. split; auto. cbn [v_thr]. eapply vset_same; eauto.
      * rewrite A2 by auto. apply H2. intros (u & op' & b'' & cs' & Hu & Ha). apply Hx. exists u, op', b'', cs'. split; auto. cbn [v_thr].
        rewrite vset_other; auto. intros ->. rewrite Ht in Hu. injection Hu as <- <- <-. apply Hin. eapply ahead_arg; [exact Hok|exact Ha].
  - destruct HI as (H1 & H2 & H3). pose proof (H1 _ _ _ _ Ht) as Hok.
    assert (Hv : forall x, In x (vargs op) -> ~ ahead op b x -> v_val s x = replay init (v_hist s) x).
    { intros x Hin Hna. apply H2. intros Hd. apply Hna. eapply (dirty_inv (init := init)); eauto. split; auto. }
    destruct (@bstep_done op b (v_val s) (replay init (v_hist s)) r v' Hok Hv Hb) as (A1 & A2 & A3).
    split; [|split]; cbn [v_val v_hist v_thr replay results_ok].
    + intros u op' b'' cs' Hu. destruct (Nat.eq_dec t u) as [<-|Hne].
      * rewrite (vset_same _ _ _ Ht) in Hu. discriminate.
      * rewrite vset_other in Hu by auto. eapply body_ok_frame; [exact (H1 _ _ _ _ Hu)|].
        intros x Hx. assert (Hd : ~ In x (vargs op)) by (eapply body_args_disjoint; [exact HO|exact Hu|exact Ht|auto|exact Hx]).
        split; [now apply A2|]. now apply atomic_frame.
    + intros x Hx. destruct (in_dec Nat.eq_dec x (vargs op)) as [Hin|Hin]; [now apply A3|].
      rewrite A2, atomic_frame by auto. apply H2. intros (u & op' & b'' & cs' & Hu & Ha). apply Hx. exists u, op', b'', cs'.
      split; auto. cbn [v_thr]. rewrite vset_other; auto. intros ->. rewrite Ht in Hu. injection Hu as <- <- <-. apply Hin. eapply ahead_arg; [exact Hok|exact Ha].
    + split; auto.
  - eapply InvV_change; eauto; try discriminate; auto.
  - eapply InvV_change; eauto; try discriminate; auto.
Qed.

Lemma InvV_reach init todos s : vreach init todos s -> InvV init s.
Proof.
  induction 1 as [|s s' Hr IH Hs].
  - split; [|split]; simpl; auto. intros t op b cs H. rewrite nth_error_map in H. destruct (nth_error todos t); discriminate.
  - exact (InvV_step (InvO_reach Hr) IH Hs).
Qed.

(** ** Histories *)
Definition prog_of (x : vthread) : vprog :=
  match x with
  | VIdle _ => PIdle
  | VLock op _ _ | VBody op _ _ => PCalled op
  | VUnlock op r _ _ => PCommitted op r
  end.

Lemma follows_reach init todos s t x : vreach init todos s -> nth_error (v_thr s) t = Some x -> follows t (v_hist s) (prog_of x).
Proof.
  intros H. revert t x. induction H as [|s s' Hr IH Hs]; intros u y Hy.
  - simpl in *. rewrite nth_error_map in Hy. destruct (nth_error todos u); [|discriminate]. injection Hy as <-. constructor.
  - destruct Hs as [s t op cs Ht|s t op h cs a tr x o' Ht Hp Ha|s t op h cs h' tr Ht Hp|s t op h cs h' tr Ht Hp
                 |s t op b cs b' v' Ht Hb|s t op b cs r v' Ht Hb|s t op r m ms cs Ht|s t op r cs Ht];
      cbn [v_thr v_hist] in *; (destruct (Nat.eq_dec t u) as [<-|Hne];
        [rewrite (vset_same _ _ _ Ht) in Hy; injection Hy as <-; specialize (IH _ _ Ht); cbn [prog_of] in *; auto; constructor; auto
        |rewrite vset_other in Hy by auto; auto; apply f_other; auto]).
Qed.

(** ** No deadlock *)
Lemma vown_thread init todos s m t : vreach init todos s -> v_own s m = Some t -> exists x, nth_error (v_thr s) t = Some x.
Proof.
  intros Hr. revert m t. induction Hr as [|s s' Hr IH Hs]; intros m t Ho.
  - discriminate.
  - assert (Hkeep : forall i y z, nth_error (v_thr s) i = Some y -> (exists x, nth_error (v_thr s) t = Some x) ->
              exists x, nth_error (vset (v_thr s) i z) t = Some x).
    { intros i y z Hi [x Hx]. destruct (Nat.eq_dec i t) as [->|Hne].
      - exists z. eapply vset_same; eauto.
      - exists x. now rewrite vset_other. }
    destruct Hs as [s i op cs Hi|s i op h cs a tr x o' Hi Hp Ha|s i op h cs h' tr Hi Hp|s i op h cs h' tr Hi Hp
                 |s i op b cs b' v' Hi Hb|s i op b cs r v' Hi Hb|s i op r y ms cs Hi|s i op r cs Hi];
      cbn [v_own v_thr] in *; try (eapply Hkeep; eauto; fail).
    + assert (Hc : o' m = Some t -> t = i \/ v_own s m = Some t).
      { destruct Ha; auto; unfold set_owner; destruct (Nat.eqb m0 m); auto; try discriminate; injection 1 as ->; auto. }
      destruct (Hc Ho) as [->|Hc'].
      * eexists. eapply vset_same; eauto.
      * eapply Hkeep; eauto.
    + unfold set_owner in Ho. destruct (Nat.eqb y m); [discriminate|]. eapply Hkeep; eauto.
Qed.

(** Thread [t] can take a step without an exception being needed. *)
Definition vcan (s : vsys) (t : nat) : Prop :=
  match nth_error (v_thr s) t with
  | Some (VIdle (_ :: _)) | Some (VBody _ _ _) | Some (VUnlock _ _ _ _) => True
  | Some (VLock op h _) => match run_lock (lock_of op) h with Pend (ALock m) _ => v_own s m = None | _ => True end
  | _ => False
  end.

Lemma vcan_steps s t : vcan s t -> exists s', vstep s s' /\ forall u, u <> t -> nth_error (v_thr s') u = nth_error (v_thr s) u.
Proof.
  assert (Hset : forall o v y h u, u <> t -> nth_error (v_thr (MkV o v (vset (v_thr s) t y) h)) u = nth_error (v_thr s) u).
  { intros. simpl. now rewrite vset_other by congruence. }
  unfold vcan. destruct (nth_error (v_thr s) t) as [[[|op cs]|op h cs|op b cs|op r [|m ms] cs]|] eqn:Ht; try contradiction.
  - intros _. eexists. split; [eapply vs_call; eauto|auto].
  - destruct (run_lock (lock_of op) h) as [[] h' tr|h' tr|a tr|] eqn:Hr.
    + intros _. eexists. split; [eapply vs_locked; eauto|auto].
    + intros _. eexists. split; [eapply vs_exn; eauto|auto].
    + destruct a as [m|m|m]; intros H.
      * eexists. split; [eapply vs_act; eauto; now apply ans_lock|auto].
      * eexists. split; [eapply vs_act; eauto; apply ans_try_fail|auto].
      * eexists. split; [eapply vs_act; eauto; apply ans_unlock|auto].
    + now apply run_lock_fuel in Hr.
  - intros _. destruct (bstep op b (v_val s)) as [[b'|r] v'] eqn:E.
    + eexists. split; [eapply vs_body; eauto|auto].
    + eexists. split; [eapply vs_commit; eauto|auto].
  - intros _. eexists. split; [eapply vs_ret; eauto|auto].
  - intros _. eexists. split; [eapply vs_unlock; eauto|auto].
Qed.

Lemma vwaiting_holds_nothing init todos s t m : vreach init todos s -> vwaits s t m -> forall m', v_own s m' <> Some t.
Proof.
  intros Hr (op & h & cs & tr & Ht & Hp & _) m' Ho.
  assert (HI := InvO_reach Hr). pose proof (HI t _ m' Ht) as Hh. cbn [vheld] in Hh. rewrite Hp in Hh. cbn [trace_of] in Hh.
  rewrite Ho in Hh. simpl in Hh. rewrite Nat.eqb_refl in Hh.
  assert (Hsp := @lock_all_or_none (lock_of op) h). rewrite Hp in Hsp. destruct Hsp as [_ [_ Hz]]. rewrite Hz in Hh. discriminate.
Qed.

Lemma vholder_can init todos s m t : vreach init todos s -> v_own s m = Some t -> vcan s t.
Proof.
  intros Hr Ho. destruct (vown_thread m Hr Ho) as [x Hx]. assert (HI := InvO_reach Hr).
  pose proof (HI t _ m Hx) as Hh. rewrite Ho in Hh. simpl in Hh. rewrite Nat.eqb_refl in Hh.
  unfold vcan. rewrite Hx. destruct x as [[|c cs]|op h cs|op b cs|op r ms cs]; auto.
  - discriminate.
  - destruct (run_lock (lock_of op) h) as [[] h' tr|h' tr|a tr|] eqn:Hp; auto. destruct a as [y|y|y]; auto.
    cbn [vheld] in Hh. rewrite Hp in Hh. cbn [trace_of] in Hh.
    assert (Hsp := @lock_all_or_none (lock_of op) h). rewrite Hp in Hsp. destruct Hsp as [_ [_ Hz]]. rewrite Hz in Hh. discriminate.
Qed.

Lemma vwaits_or_can s t x : nth_error (v_thr s) t = Some x -> vdone s t \/ vcan s t \/ exists m, vwaits s t m.
Proof.
  intros Hx. unfold vdone, vcan. rewrite Hx. destruct x as [[|c cs]|op h cs|op b cs|op r ms cs]; auto.
  destruct (run_lock (lock_of op) h) as [[] h' tr|h' tr|a tr|] eqn:Hp; auto. destruct a as [y|y|y]; auto.
  destruct (v_own s y) as [t'|] eqn:Ho; auto. right. right. exists y, op, h, cs, tr. rewrite Ho. repeat split; auto. discriminate.
Qed.

(** A comparison of an object with itself never gets both locks. *)
Lemma self_never init todos s t f i h cs h' tr :
  vreach init todos s -> nth_error (v_thr s) t = Some (VLock (OCmp f i i) h cs) -> run_lock (lock_of (OCmp f i i)) h <> Val tt h' tr.
Proof.
  intros Hr Ht E. assert (HI := InvO_reach Hr). pose proof (HI t _ i Ht) as Hh. cbn [vheld] in Hh. rewrite E in Hh. cbn [trace_of] in Hh.
  assert (Hsp := @lock_all_or_none (lock_of (OCmp f i i)) h). rewrite E in Hsp. destruct Hsp as [_ Hz]. rewrite Hz in Hh.
  cbn [lock_of args] in Hh. rewrite !occurs_cons, occurs_nil in Hh. unfold c1 in Hh. rewrite Nat.eqb_refl in Hh.
  destruct (hit (v_own s i) t); lia.
Qed.

Lemma self_no_body init todos s t f i b cs :
  vreach init todos s -> nth_error (v_thr s) t <> Some (VBody (OCmp f i i) b cs).
Proof.
  intros Hr Ht. assert (HI := InvO_reach Hr). pose proof (HI t _ i Ht) as Hh. cbn [vheld] in Hh. unfold vargs in Hh. cbn [lock_of args] in Hh.
  rewrite !occurs_cons, occurs_nil in Hh. unfold c1 in Hh. rewrite Nat.eqb_refl in Hh. destruct (hit (v_own s i) t); lia.
Qed.

Lemma self_no_commit init todos s : vreach init todos s -> forall t f i r, ~ In (VCommit t (OCmp f i i) r) (v_hist s).
Proof.
  induction 1 as [|s s' Hr IH Hs]; intros t f i r Hin; [exact Hin|].
  assert (Hkeep : forall e, (forall r', e <> VCommit t (OCmp f i i) r') -> In (VCommit t (OCmp f i i) r) (e :: v_hist s) -> False).
  { intros e He [E|E]; [now apply He in E|]. now apply IH in E. }
  destruct Hs as [s u op cs Hu|s u op h cs a tr x o' Hu Hp Ha|s u op h cs h' tr Hu Hp|s u op h cs h' tr Hu Hp
                 |s u op b cs b' v' Hu Hb|s u op b cs r' v' Hu Hb|s u op r' y ms cs Hu|s u op r' cs Hu];
    cbn [v_hist] in Hin; try (eapply IH; eauto; fail); try (eapply Hkeep; [|exact Hin]; discriminate).
  destruct Hin as [E|E]; [|eapply IH; eauto]. injection E as <- -> <-. exact (@self_no_body _ _ _ _ _ _ _ _ Hr Hu).
Qed.
