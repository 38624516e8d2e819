(** * Proofs about threads that use boost::lock *)

From Verif Require Export LA_Sys LA_Proofs.
Set Implicit Arguments.
Local Open Scope Z_scope.

Definition tst_held (x : thread) (m : nat) : Z :=
  match x with
  | TIdle _ => 0
  | TIn c h _ => held m (trace_of (run_lock c h))
  | TCrit ms _ => occurs ms m
  end.

Lemma set_nth_same l i x y : nth_error l i = Some y -> nth_error (set_nth l i x) i = Some x.
Proof. revert i. induction l as [|z l IH]; intros [|i]; simpl; auto; discriminate. Qed.
Lemma set_nth_other l i j x : i <> j -> nth_error (set_nth l i x) j = nth_error l j.
Proof. revert i j. induction l as [|z l IH]; intros [|i] [|j]; simpl; auto; congruence. Qed.

Definition Inv (s : sys) : Prop :=
  forall t x m, nth_error (threads s) t = Some x ->
    tst_held x m = if (match owner s m with Some t' => Nat.eqb t' t | None => false end) then 1 else 0.

Definition hit (o : option nat) (t : nat) : bool := match o with Some t' => Nat.eqb t' t | None => false end.

(** A step that changes thread [t] from [x] to [y] and the owners from [o] to [o']. *)
Lemma Inv_change s t x y o' :
  Inv s -> nth_error (threads s) t = Some x ->
  (forall m, (o' m = owner s m /\ tst_held y m = tst_held x m) \/
             (hit (owner s m) t = false /\ owner s m = None /\ o' m = Some t /\ tst_held y m = 1) \/
             (hit (owner s m) t = true /\ o' m = None /\ tst_held y m = 0)) ->
  Inv (MkSys o' (set_nth (threads s) t y)).
Proof.
  intros HI Hx Hc t' z m Hz. simpl in Hz. cbn [owner].
  change (match o' m with Some t'0 => Nat.eqb t'0 t' | None => false end) with (hit (o' m) t').
  destruct (Nat.eq_dec t t') as [<-|Hne].
  - rewrite (set_nth_same _ _ y Hx) in Hz. injection Hz as <-.
    destruct (Hc m) as [[Ho Hh]|[(Hn & Hn' & Ho & Hh)|(Hn & Ho & Hh)]].
    + rewrite Hh, Ho. exact (HI t x m Hx).
    + rewrite Hh, Ho. simpl. now rewrite Nat.eqb_refl.
    + rewrite Hh, Ho. reflexivity.
  - rewrite set_nth_other in Hz by auto. rewrite (HI t' z m Hz).
    change (match owner s m with Some t'0 => Nat.eqb t'0 t' | None => false end) with (hit (owner s m) t').
    destruct (Hc m) as [[Ho Hh]|[(Hn & Hn' & Ho & Hh)|(Hn & Ho & Hh)]].
    + now rewrite Ho.
    + rewrite Ho, Hn'. simpl. apply Nat.eqb_neq in Hne. now rewrite Hne.
    + rewrite Ho. simpl. destruct (owner s m) as [t''|]; [|discriminate]. simpl in *.
      apply Nat.eqb_eq in Hn. subst t''. apply Nat.eqb_neq in Hne. now rewrite Hne.
Qed.

Lemma Inv_hit s t x m : Inv s -> nth_error (threads s) t = Some x -> tst_held x m = (if hit (owner s m) t then 1 else 0).
Proof. intros HI Hx. exact (HI t x m Hx). Qed.

Lemma occurs_le1 ms m : (forall x, occurs ms x <= 1) -> forall ms', ms = m :: ms' -> occurs ms' m = 0.
Proof.
  intros H ms' ->. specialize (H m). rewrite occurs_cons in H. unfold c1 in H. rewrite Nat.eqb_refl in H.
  pose proof (occurs_nonneg ms' m). lia.
Qed.

Lemma Inv_sstep s s' : Inv s -> sstep s s' -> Inv s'.
Proof.
  intros HI Hs.
  destruct Hs as [s t c cs Ht|s t c h cs a tr x o' Ht Hr Ha|s t c h cs h' tr Ht Hr|s t c h cs h' tr Ht Hr|s t m ms cs Ht|s t cs Ht].
  - eapply Inv_change; eauto. intros m. left. split; [reflexivity|]. cbn [tst_held].
    pose proof (run_lock_fuel c []) as Hf. unfold run_lock in *.
    assert (Hg := good_body c (Nat.le_refl (3 + 2 * length (@nil ans) + 2 * length (args c)))).
    destruct Hg as (Hac & _ & _). destruct (acct_nil [] Hac) as [E|E]; [contradiction|]. now rewrite E.
  - assert (Hn := @run_lock_next c h a tr x Hr).
    assert (Hsp := @lock_all_or_none c h). rewrite Hr in Hsp. destruct Hsp as [Hu Hp].
    assert (Hh : forall m, held m tr = if hit (owner s m) t then 1 else 0).
    { intros m. rewrite <- (@Inv_hit _ _ _ m HI Ht). cbn [tst_held]. now rewrite Hr. }
    eapply Inv_change; eauto. intros m. cbn [tst_held]. rewrite Hn, Hr. cbn [trace_of held].
    destruct Ha as [y Hy|y|y Hy|y|y|y]; simpl.
    + destruct (Nat.eqb y m) eqn:E.
      * apply Nat.eqb_eq in E. subst y. right. left. unfold set_owner. rewrite Nat.eqb_refl, Hh, Hy. simpl. repeat split; reflexivity.
      * left. unfold set_owner. rewrite E. split; reflexivity.
    + left. split; reflexivity.
    + destruct (Nat.eqb y m) eqn:E.
      * apply Nat.eqb_eq in E. subst y. right. left. unfold set_owner. rewrite Nat.eqb_refl, Hh, Hy. simpl. repeat split; reflexivity.
      * left. unfold set_owner. rewrite E. split; reflexivity.
    + left. split; reflexivity.
    + left. split; reflexivity.
    + simpl in Hp. rewrite Hh in Hp. destruct (hit (owner s y) t) eqn:E; [|lia].
      destruct (Nat.eqb y m) eqn:E2.
      * apply Nat.eqb_eq in E2. subst y. right. right. unfold set_owner. rewrite Nat.eqb_refl, Hh, E. repeat split; lia.
      * left. unfold set_owner. rewrite E2. split; reflexivity.
  - assert (Hsp := @lock_all_or_none c h). rewrite Hr in Hsp. destruct Hsp as [Hu Hp].
    eapply Inv_change; eauto. intros m. left. split; [reflexivity|]. cbn [tst_held]. rewrite Hr. cbn [trace_of]. now rewrite Hp.
  - assert (Hsp := @lock_all_or_none c h). rewrite Hr in Hsp. destruct Hsp as [Hu Hp].
    eapply Inv_change; eauto. intros m. left. split; [reflexivity|]. cbn [tst_held]. rewrite Hr. cbn [trace_of]. now rewrite Hp.
  - eapply Inv_change; eauto. intros y. cbn [tst_held].
    assert (Hh : forall x, occurs (m :: ms) x = if hit (owner s x) t then 1 else 0).
    { intros x. rewrite <- (@Inv_hit _ _ _ x HI Ht). reflexivity. }
    destruct (Nat.eqb m y) eqn:E.
    + apply Nat.eqb_eq in E. subst y. right. right.
      assert (Hm := Hh m). rewrite occurs_cons in Hm. unfold c1 in Hm. rewrite Nat.eqb_refl in Hm.
      pose proof (occurs_nonneg ms m). unfold set_owner. rewrite Nat.eqb_refl.
      destruct (hit (owner s m) t) eqn:E; [|lia]. repeat split; lia.
    + left. unfold set_owner. rewrite E. split; [reflexivity|]. rewrite occurs_cons. unfold c1. rewrite E. lia.
  - eapply Inv_change; eauto.
Qed.

Lemma Inv_reach todos s : sreach todos s -> Inv s.
Proof.
  induction 1 as [|s s' _ IH Hs].
  - intros t x m Hx. simpl in *. rewrite nth_error_map in Hx. destruct (nth_error todos t); [|discriminate].
    injection Hx as <-. reflexivity.
  - exact (Inv_sstep IH Hs).
Qed.

(** A thread that waits holds nothing. *)
Lemma waiting_holds_nothing todos s t m :
  sreach todos s -> waits_for s t m -> forall m', owner s m' <> Some t.
Proof.
  intros Hr (c & h & cs & tr & Ht & Hp & _) m' Ho.
  assert (HI := Inv_reach Hr). pose proof (@Inv_hit _ _ _ m' HI Ht) as Hh. cbn [tst_held] in Hh. rewrite Hp in Hh. cbn [trace_of] in Hh.
  rewrite Ho in Hh. simpl in Hh. rewrite Nat.eqb_refl in Hh.
  assert (Hsp := @lock_all_or_none c h). rewrite Hp in Hsp. destruct Hsp as [_ [_ Hz]]. rewrite Hz in Hh. discriminate.
Qed.

(** Owners are threads of the system. *)
Lemma owner_thread todos s m t : sreach todos s -> owner s m = Some t -> exists x, nth_error (threads s) t = Some x.
Proof.
  intros Hr. revert m t. induction Hr as [|s s' Hr IH Hs]; intros m t Ho.
  - discriminate.
  - assert (Hkeep : forall i y z, nth_error (threads s) i = Some y -> (exists x, nth_error (threads s) t = Some x) ->
              exists x, nth_error (set_nth (threads s) i z) t = Some x).
    { intros i y z Hi [x Hx]. destruct (Nat.eq_dec i t) as [->|Hne].
      - exists z. eapply set_nth_same; eauto.
      - exists x. now rewrite set_nth_other. }
    destruct Hs as [s i c cs Hi|s i c h cs a tr x o' Hi Hp Ha|s i c h cs h' tr Hi Hp|s i c h cs h' tr Hi Hp|s i y ms cs Hi|s i cs Hi];
      cbn [owner threads] in *; try (eapply Hkeep; eauto; fail).
    + assert (Hc : o' m = Some t -> t = i \/ owner s m = Some t).
      { destruct Ha; auto; unfold set_owner; destruct (Nat.eqb m0 m); auto; try discriminate; injection 1 as ->; auto. }
      destruct (Hc Ho) as [->|Hc'].
      * exists (TIn c (h ++ [x]) cs). eapply set_nth_same; eauto.
      * eapply Hkeep; eauto.
    + unfold set_owner in Ho. destruct (Nat.eqb y m); [discriminate|]. eapply Hkeep; eauto.
Qed.

(** Unless all threads are done, some thread can take a step without an exception being needed. *)
Definition can_step (s : sys) (t : nat) : Prop :=
  match nth_error (threads s) t with
  | Some (TIdle (_ :: _)) | Some (TCrit _ _) => True
  | Some (TIn c h _) => match run_lock c h with Pend (ALock m) _ => owner s m = None | _ => True end
  | _ => False
  end.

Lemma can_step_steps s t : can_step s t -> exists s', sstep s s' /\ forall u, u <> t -> nth_error (threads s') u = nth_error (threads s) u.
Proof.
  unfold can_step. destruct (nth_error (threads s) t) as [[[|c cs]|c h cs|[|m ms] cs]|] eqn:Ht; try contradiction.
  - intros _. eexists. split; [eapply st_call; eauto|]. intros u Hu. simpl. now rewrite set_nth_other by congruence.
  - destruct (run_lock c h) as [[] h' tr|h' tr|a tr|] eqn:Hr.
    + intros _. eexists. split; [eapply st_ret; eauto|]. intros u Hu. simpl. now rewrite set_nth_other by congruence.
    + intros _. eexists. split; [eapply st_exn; eauto|]. intros u Hu. simpl. now rewrite set_nth_other by congruence.
    + destruct a as [m|m|m]; intros H.
      * eexists. split; [eapply st_act; eauto; now apply ans_lock|]. intros u Hu. simpl. now rewrite set_nth_other by congruence.
      * eexists. split; [eapply st_act; eauto; apply ans_try_fail|]. intros u Hu. simpl. now rewrite set_nth_other by congruence.
      * eexists. split; [eapply st_act; eauto; apply ans_unlock|]. intros u Hu. simpl. now rewrite set_nth_other by congruence.
    + now apply run_lock_fuel in Hr.
  - intros _. eexists. split; [eapply st_leave; eauto|]. intros u Hu. simpl. now rewrite set_nth_other by congruence.
  - intros _. eexists. split; [eapply st_unlock; eauto|]. intros u Hu. simpl. now rewrite set_nth_other by congruence.
Qed.

Lemma holder_can_step todos s m t : sreach todos s -> owner s m = Some t -> can_step s t.
Proof.
  intros Hr Ho. destruct (owner_thread m Hr Ho) as [x Hx]. assert (HI := Inv_reach Hr).
  pose proof (@Inv_hit _ _ _ m HI Hx) as Hh. rewrite Ho in Hh. simpl in Hh. rewrite Nat.eqb_refl in Hh.
  unfold can_step. rewrite Hx. destruct x as [[|c cs]|c h cs|ms cs]; auto.
  - discriminate.
  - destruct (run_lock c h) as [[] h' tr|h' tr|a tr|] eqn:Hp; auto. destruct a as [y|y|y]; auto.
    cbn [tst_held] in Hh. rewrite Hp in Hh. cbn [trace_of] in Hh.
    assert (Hsp := @lock_all_or_none c h). rewrite Hp in Hsp. destruct Hsp as [_ [_ Hz]]. rewrite Hz in Hh. discriminate.
Qed.

Lemma waits_or_steps s t x : nth_error (threads s) t = Some x -> done s t \/ can_step s t \/ exists m, waits_for s t m.
Proof.
  intros Hx. unfold done, can_step. rewrite Hx. destruct x as [[|c cs]|c h cs|ms cs]; auto.
  destruct (run_lock c h) as [[] h' tr|h' tr|a tr|] eqn:Hp; auto. destruct a as [y|y|y]; auto.
  destruct (owner s y) as [t'|] eqn:Ho; auto. right. right. exists y, c, h, cs, tr. rewrite Ho. repeat split; auto. discriminate.
Qed.
