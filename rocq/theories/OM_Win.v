(** * win32/once.hpp: the invariant (proofs) *)
From Coq Require Import List Arith Lia Bool.
Import ListNotations.
From Verif Require Import OM_Model OM_Spec OM_Frames OM_Views OM_Atomic.

(** There is no unused place among the writes. *)
Definition CI (s : st) : Prop := forall g n, n <= top (mem s) g -> exists m, In m (mem s g) /\ m_ts m = n.

Definition WI (s : st) : Prop :=
  exists ow, FI (val (mem s)) ow (stk s) (log s) /\ MI (mem s) (vw s) (mxv s) /\ CI s /\
    SI (mem s) ow (vw s) (stk s) (log s) /\ promises (log s).

Lemma rmw_top : forall s t g m, MI (mem s) (vw s) (mxv s) -> CI s -> reads (mem s g) (vw s t) g m ->
  free_ts (mem s g) (S (m_ts m)) -> m_ts m = top (mem s) g /\ m_val m = val (mem s) g /\ m_view m = topv (mem s) g.
Proof.
  intros s t g m M C (R & _) Fr. eapply top_is; eauto.
  destruct (le_lt_dec (top (mem s) g) (m_ts m)) as [L|L]; auto.
  destruct (C g (S (m_ts m))) as (m' & A & B); [lia|]. now apply Fr in A.
Qed.

Lemma CI_wr : forall (M : nat -> list msg) g m, m_ts m = S (top M g) ->
  (forall k n, n <= top M k -> exists x, In x (M k) /\ m_ts x = n) ->
  forall k n, n <= top (upd M g (m :: M g)) k -> exists x, In x (upd M g (m :: M g) k) /\ m_ts x = n.
Proof.
  intros M g m E C k n. rewrite top_upd. destruct (k =? g) eqn:K.
  - apply Nat.eqb_eq in K. subst k. rewrite upd_eq. intros L. destruct (Nat.eq_dec n (m_ts m)) as [->|N]; [exists m; split; [now left|auto]|].
    destruct (C g n) as (x & A & B); [lia|]. exists x. split; auto. now right.
  - apply Nat.eqb_neq in K. rewrite upd_ne by auto. apply C.
Qed.

Lemma user_CI : forall s s', CI s -> ustep s s' -> CI s'.
Proof. intros s s' C H. destruct H; exact C. Qed.

Local Hint Resolve neutral_refl neutral_ret neutral_throw same_neutral same_start incl_refl : om.

Lemma WI_step : forall s s', WI s -> wstep s s' -> WI s'.
Proof.
  intros s s' (ow & F & M & C & S & P) T. destruct T.
  - exists ow. split; [eapply user_FI; eauto|]. split; [eapply user_MI; eauto|]. split; [eapply user_CI; eauto|].
    split; [eapply user_SI; eauto|eapply user_promises; eauto].
  - (* fast *)
    rename H into E. pose proof (acq_fin _ _ _ _ _ Acquire F M S H0 H1 eq_refl) as A.
    destruct (fin_read _ _ _ _ M H0 H1) as (FV & _).
    exists ow. split; [|split; [|split; [|split]]]; cbs.
    + one F E (@nil frame).
    + apply MI_put; auto. intros k. eapply rview_le; eauto. apply H0.
    + exact C.
    + apply (SI_one _ _ _ _ _ _ _ _ [] _ _ S E); auto using rview_see with om. intros k [].
    + apply promises_ret; auto. apply (f_fin _ _ _ _ F). lia.
  - (* slow *)
    rename H into E. exists ow. split; [|split; [|split; [|split]]]; cbs.
    + one F E [FCas g].
    + apply MI_put; auto. intros k. eapply rview_le; eauto. apply H0.
    + exact C.
    + apply (SI_one _ _ _ _ _ _ _ _ [FCas g] _ _ S E); auto using rview_see with om. intros k [K|[]]; discriminate.
    + auto.
  - (* the flag is taken *)
    rename H into E. destruct (rmw_top _ _ _ _ M C H0 H2) as (T1 & T2 & T3).
    assert (W : ow g = None) by (destruct (ow g) as [u|] eqn:W; auto; rewrite (f_some _ _ _ _ F _ _ W) in T2; congruence).
    exists (upd ow g (Some t)). split; [|split; [|split; [|split]]]; cbs.
    + eapply FI_ext; [intros k; symmetry; apply val_upd|]. cbn [m_val wmsg]. eapply FI_take; eauto. congruence.
    + apply MI_wr; auto; [|lia|lia]. intros k. eapply rview_le; eauto. apply H0.
    + refine (CI_wr (mem s) g _ _ C). cbn. now rewrite T1.
    + apply SI_take.
      * apply (SI_one _ _ _ _ _ _ _ _ [FUnl g NRun] _ _ S E); auto with om; [apply (rview_see AcqRel)|]. intros k [K|[]]; discriminate.
      * rewrite upd_eq. eapply sees_mono; [apply (s_top _ _ _ _ _ S _ W)| |intros ? ? ? ?; auto]. rewrite <- T3. now apply (rview_acq AcqRel).
    + auto.
  - (* it is taken already *)
    rename H into E. exists ow. split; [|split; [|split; [|split]]]; cbs.
    + one F E [FChk g].
    + apply MI_put; auto. intros k. eapply rview_le; eauto. apply H0.
    + exact C.
    + apply (SI_one _ _ _ _ _ _ _ _ [FChk g] _ _ S E); auto using rview_see with om. intros k [K|[]]; discriminate.
    + auto.
  - (* the function is called *)
    rename H into E. destruct (own_one _ _ _ _ F t g _ _ E (Nat.eqb_refl g)) as (W & _).
    exists ow. split; [|split; [|split; [|split]]]; cbs.
    + now apply FI_start.
    + apply MI_put; auto. apply M.
    + exact C.
    + apply (SI_one _ _ _ _ _ _ _ _ [FBody g (nexte s)] _ _ S E); auto with om. intros k [K|[]]; discriminate.
    + eapply promises_start; eauto. now apply (s_own _ _ _ _ _ S).
  - (* second look *)
    rename H into E. pose proof (acq_fin _ _ _ _ _ Acquire F M S H0 H1 eq_refl) as A.
    destruct (fin_read _ _ _ _ M H0 H1) as (FV & _).
    exists ow. split; [|split; [|split; [|split]]]; cbs.
    + one F E (@nil frame).
    + apply MI_put; auto. intros k. eapply rview_le; eauto. apply H0.
    + exact C.
    + apply (SI_one _ _ _ _ _ _ _ _ [] _ _ S E); auto using rview_see with om. intros k [].
    + apply promises_ret; auto. apply (f_fin _ _ _ _ F). lia.
  - (* wait *)
    rename H into E. exists ow. split; [|split; [|split; [|split]]]; cbs.
    + one F E [FStart g].
    + apply MI_put; auto. apply M.
    + exact C.
    + apply (SI_one _ _ _ _ _ _ _ _ [FStart g] _ _ S E); auto with om. intros k [K|[]]; discriminate.
    + auto.
  - (* commit *)
    rename H into E. destruct (rmw_top _ _ _ _ M C H0 H1) as (T1 & T2 & T3).
    destruct (own_one _ _ _ _ F t g _ _ E (Nat.eqb_refl g)) as (W & _). pose proof (f_some _ _ _ _ F _ _ W) as V1.
    assert (K : completed g (log s)) by (apply (f_fr _ _ _ _ F t (FDone g e true)); rewrite E; now left).
    exists (upd ow g None). split; [|split; [|split; [|split]]]; cbs.
    + eapply FI_ext; [intros k; symmetry; apply val_upd|]. cbn [m_val wmsg].
      apply (FI_store _ _ _ _ F t g (FDone g e true) r [] 2); auto with om.
      * apply Nat.eqb_refl.
      * discriminate.
      * eapply tail_ok; eauto.
      * intros f [].
    + apply MI_wr; auto; [|lia|lia]. intros k. eapply rview_le; eauto. apply H0.
    + refine (CI_wr (mem s) g _ _ C). cbn. now rewrite T1.
    + apply SI_store with (t := t); [|auto|cbn [m_view wmsg releases]; rewrite upd_eq; apply incl_refl].
      apply (SI_one _ _ _ _ _ _ _ _ [] _ _ S E); auto with om; [apply (rview_see AcqRel)|]. intros k [].
    + apply promises_ret; auto. eapply sees_mono; [apply (s_own _ _ _ _ _ S _ _ W)|apply rview_see|intros ? ? ? ?; auto].
  - (* rollback *)
    rename H into E. destruct (rmw_top _ _ _ _ M C H0 H1) as (T1 & T2 & T3).
    destruct (own_one _ _ _ _ F t g _ _ E (Nat.eqb_refl g)) as (W & _). pose proof (f_some _ _ _ _ F _ _ W) as V1.
    assert (K : ~ completed g (log s)) by (apply (f_fr _ _ _ _ F t (FDone g e false)); rewrite E; now left).
    exists (upd ow g None). split; [|split; [|split; [|split]]]; cbs.
    + eapply FI_ext; [intros k; symmetry; apply val_upd|]. cbn [m_val wmsg].
      apply (FI_store _ _ _ _ F t g (FDone g e false) r [] 0); auto with om.
      * apply Nat.eqb_refl.
      * discriminate.
      * eapply tail_ok; eauto.
      * intros f [].
    + apply MI_wr; auto; [|lia|lia]. intros k. eapply rview_le; eauto. apply H0.
    + refine (CI_wr (mem s) g _ _ C). cbn. now rewrite T1.
    + apply SI_store with (t := t); [|auto|cbn [m_view wmsg releases]; rewrite upd_eq; apply incl_refl].
      apply (SI_one _ _ _ _ _ _ _ _ [] _ _ S E); auto with om; [apply (rview_see AcqRel)|]. intros k [].
    + now apply promises_throw.
Qed.

Lemma WI_reach : forall s, reach wstep (init 0) s -> WI s.
Proof.
  induction 1.
  - exists (fun _ => None). split; [apply FI_init|]. split; [apply MI_init|]. split.
    + intros g n L. cbn in *. exists (MkMsg 0 0 v0). split; [now left|]. cbn. lia.
    + split; [apply SI_init|apply promises_nil].
  - eapply WI_step; eauto.
Qed.
