(** * once_atomic.cpp: the invariant (proofs) *)
From Coq Require Import List Arith Lia Bool.
Import ListNotations.
From Verif Require Import OM_Model OM_Spec OM_Frames OM_Views.

Definition cur (s : st) : view := match hold s with Some t => vw s t | None => mxv s end.
Definition crit (fs : list frame) : bool :=
  match fs with FChk _ :: _ | FCas _ :: _ | FStore _ _ :: _ | FUnl _ _ :: _ => true | _ => false end.

(** The thread with the mutex is past every write. *)
Record HI (s : st) : Prop := {
  h_cur : forall g, top (mem s) g <= v_ts (cur s) g;
  h_hold : forall t, crit (stk s t) = true <-> hold s = Some t }.

Definition AI (s : st) : Prop :=
  exists ow, FI (val (mem s)) ow (stk s) (log s) /\ MI (mem s) (vw s) (mxv s) /\ HI s /\
    SI (mem s) ow (vw s) (stk s) (log s) /\ promises (log s).

Lemma holder_top : forall s t g m, MI (mem s) (vw s) (mxv s) -> HI s -> crit (stk s t) = true ->
  reads (mem s g) (vw s t) g m -> m_ts m = top (mem s) g /\ m_val m = val (mem s) g /\ m_view m = topv (mem s) g.
Proof.
  intros s t g m M H C (R1 & R2). apply (h_hold _ H) in C. pose proof (h_cur _ H g) as K. unfold cur in K. rewrite C in K.
  eapply top_is; eauto. lia.
Qed.

(** The mutex and the newest writes do not change. *)
Lemma HI_put : forall s t v fs, HI s -> crit fs = crit (stk s t) -> (forall g, v_ts (vw s t) g <= v_ts v g) -> HI (put s t v fs).
Proof.
  intros s t v fs H C L. constructor.
  - intros g. pose proof (h_cur _ H g) as K. unfold cur in *. cbn. destruct (hold s) as [u|]; auto.
    upd_cases u t; auto. specialize (L g). lia.
  - intros u. cbn. upd_cases u t; [rewrite C|]; apply (h_hold _ H).
Qed.
Lemma HI_say : forall s x, HI s -> HI (say s x).
Proof. intros s x [A B]. constructor; auto. Qed.
Lemma HI_count : forall s, HI s -> HI (count_e s).
Proof. intros s [A B]. constructor; auto. Qed.
Lemma HI_take : forall s t v fs, HI s -> hold s = None -> crit fs = true -> (forall g, v_ts (mxv s) g <= v_ts v g) ->
  HI (take (put s t v fs) t).
Proof.
  intros s t v fs H N C L. constructor.
  - intros g. pose proof (h_cur _ H g) as K. unfold cur in *. cbn. rewrite N in K. rewrite upd_eq. specialize (L g). lia.
  - intros u. cbn. upd_cases u t; [tauto|]. rewrite (h_hold _ H). rewrite N. split; congruence.
Qed.
Lemma HI_give : forall s t v fs, HI s -> crit (stk s t) = true -> crit fs = false -> (forall g, v_ts (vw s t) g <= v_ts v g) ->
  HI (give (put s t v fs) v).
Proof.
  intros s t v fs H C D L. apply (h_hold _ H) in C. constructor.
  - intros g. pose proof (h_cur _ H g) as K. unfold cur in *. cbn. rewrite C in K. specialize (L g). lia.
  - intros u. cbn. upd_cases u t; [split; congruence|]. rewrite (h_hold _ H), C. split; congruence.
Qed.
Lemma HI_wr : forall s t v fs g n m, HI s -> crit (stk s t) = true -> crit fs = true -> (forall h, v_ts (vw s t) h <= v_ts v h) ->
  m_ts m = n -> n <= v_ts v g ->
  HI (wr (put s t v fs) g m).
Proof.
  intros s t v fs g n m H C D L E N. pose proof (proj1 (h_hold _ H t) C) as Hd. constructor.
  - intros h. pose proof (h_cur _ H h) as K. unfold cur in *. cbn. rewrite Hd in *. rewrite upd_eq, top_upd.
    destruct (h =? g) eqn:G; [apply Nat.eqb_eq in G; subst; lia|]. specialize (L h). lia.
  - intros u. cbn. upd_cases u t; [tauto|]. apply (h_hold _ H).
Qed.

Lemma user_crit : forall fs g, in_user_code fs -> crit (FStart g :: fs) = crit fs.
Proof. intros fs g [->|(k & e & r & ->)]; reflexivity. Qed.

(** The user's code, for any implementation. *)
Lemma user_FI : forall s s' ow, FI (val (mem s)) ow (stk s) (log s) -> ustep s s' -> FI (val (mem s')) ow (stk s') (log s').
Proof.
  intros s s' ow F H. destruct H; cbn.
  - change (FStart g :: stk s t) with ([FStart g] ++ stk s t). apply (FI_keep _ _ _ _ F) with (a := []); auto.
    + now left.
    + intros f q E x K. cbn in E. injection E as <- <-. destruct H as [H|(k & e & r & H)]; rewrite H in K; [destruct K|].
      destruct K as [<-|K]; eauto. eapply (f_tail _ _ _ _ F); eauto.
    + intros f [<-|[]]. exact I.
    + intros k e [].
  - change (stk s t) with ([] ++ stk s t). apply (FI_keep _ _ _ _ F) with (a := []); auto.
    + now left.
    + intros f q E. cbn in E. eapply (f_tail _ _ _ _ F); eauto.
    + intros f [].
  - now apply FI_end.
Qed.
Lemma user_promises : forall s s' ow, FI (val (mem s)) ow (stk s) (log s) -> promises (log s) -> ustep s s' -> promises (log s').
Proof. intros s s' ow F P H. destruct H; cbn; auto. eapply promises_end; eauto. Qed.
Lemma user_MI : forall s s', MI (mem s) (vw s) (mxv s) -> ustep s s' -> MI (mem s') (vw s') (mxv s').
Proof.
  intros s s' M H. destruct H; cbn; apply MI_put; auto; intros k; try apply (m_vw _ _ _ M).
  apply join_le; apply (m_vw _ _ _ M).
Qed.
Lemma user_SI : forall s s' ow, FI (val (mem s)) ow (stk s) (log s) -> SI (mem s) ow (vw s) (stk s) (log s) -> ustep s s' ->
  SI (mem s') ow (vw s') (stk s') (log s').
Proof.
  intros s s' ow F S H. destruct H; cbn.
  - eapply SI_put; eauto using incl_refl; [intros ? ? ? ?; auto|]. intros k [K|K]; [discriminate|auto].
  - eapply SI_put; eauto; [intros ? ? ? ?; auto|cbn; apply incl_appl, incl_refl].
  - now apply SI_end.
Qed.
Lemma user_HI : forall s s', HI s -> ustep s s' -> HI s'.
Proof.
  intros s s' H U. destruct U.
  - apply HI_put; auto. now apply user_crit.
  - apply HI_put; auto. intros k. cbn. lia.
  - apply HI_say, HI_put; auto. now rewrite H0.
Qed.

(** The first call of a thread is replaced by [b] (at most one call); nobody takes or gives up a flag. *)
Lemma FI_one : forall val ow S h h' t f b r, FI val ow S h -> S t = f :: r -> neutral h h' -> length b <= 1 ->
  (forall g, nown g b = if owns g f then 1 else 0) ->
  (forall x, In x b -> frame_ok val h x) -> (forall g e, f <> FBody g e) ->
  FI val ow (upd S t (b ++ r)) h'.
Proof.
  intros val0 ow S h h' t f b r F E N L O B NB. apply (FI_keep _ _ _ _ F) with (a := [f]); auto.
  - intros f' q Q x K. destruct b as [|y [|z b]]; cbn in *; [|injection Q as <- <-|lia].
    + eapply (f_tail _ _ _ _ F); [exact E|]. rewrite Q. now right.
    + eapply (f_tail _ _ _ _ F); eauto.
  - intros g. rewrite O. unfold nown. cbn. destruct (owns g f); reflexivity.
  - intros g e [K|[]]. now apply NB in K.
Qed.

Lemma tail_ok : forall val ow S h t f b r, FI val ow S h -> S t = f :: r -> length b <= 1 ->
  forall f' q, b ++ r = f' :: q -> forall y, In y q -> exists g e, y = FBody g e.
Proof.
  intros val0 ow S h t f b r F E L f' q Q y K. destruct b as [|x [|z b]]; cbn in *; [|injection Q as <- <-|lia].
  - eapply (f_tail _ _ _ _ F); [exact E|]. rewrite Q. now right.
  - eapply (f_tail _ _ _ _ F); eauto.
Qed.

Lemma neutral_refl : forall h, neutral h h.
Proof. now left. Qed.
Lemma neutral_ret : forall h t g w, neutral h (EvRet t g w :: h).
Proof. right. left. eauto. Qed.
Lemma neutral_throw : forall h t g, neutral h (EvThrow t g :: h).
Proof. right. right. eauto. Qed.
Local Hint Resolve neutral_refl neutral_ret neutral_throw same_neutral same_start incl_refl : om.

Lemma fin_read : forall s t g m, MI (mem s) (vw s) (mxv s) -> reads (mem s g) (vw s t) g m -> m_val m = 2 -> val (mem s) g = 2 /\ m_view m = topv (mem s) g.
Proof.
  intros s t g m M (R & _) E. destruct (fin_is _ _ _ _ _ M R) as (A & B); [lia|]. split; congruence.
Qed.

Tactic Notation "one" hyp(F) hyp(E) constr(b) := apply (FI_one _ _ _ _ _ _ _ b _ F E);
  [auto with om|cbn; auto|intros k; cbn; try destruct (_ =? k); reflexivity|let K := fresh in intros x; cbn; intros K; repeat destruct K as [<-|K]; try destruct K; cbn; auto
  |intros; discriminate].

Ltac cbs := cbn [mem hold mxv vw stk log nexte glob epo put say wr take give count_e set_glob set_epo].

(** A thread that acquires the write that says that the function is complete sees everything. *)
Lemma acq_fin : forall s ow t g m o, FI (val (mem s)) ow (stk s) (log s) -> MI (mem s) (vw s) (mxv s) ->
  SI (mem s) ow (vw s) (stk s) (log s) -> reads (mem s g) (vw s t) g m -> m_val m = 2 -> acquires o = true ->
  sees_all g (v_see (rview o (vw s t) g m)) (log s).
Proof.
  intros s ow t g m o F M S R V O. destruct (fin_read _ _ _ _ M R V) as (A & B).
  assert (W : ow g = None) by (eapply fin_not_owned; [exact F|lia]).
  eapply sees_mono; [apply (s_top _ _ _ _ _ S _ W)| |intros ? ? ? ?; auto]. rewrite <- B. now apply rview_acq.
Qed.

(** The first call is replaced; the view grows. *)
Lemma SI_one : forall M ow V S h h' t f b r v, SI M ow V S h -> S t = f :: r -> same_ends h h' ->
  incl (v_see (V t)) (v_see v) -> (forall g, In (FUnl g NRet) b -> sees_all g (v_see v) h) ->
  SI M ow (upd V t v) (upd S t (b ++ r)) h'.
Proof.
  intros M ow V S h h' t f b r v I E N L B. eapply SI_put; eauto. intros g H.
  apply in_app_or in H. destruct H as [H|H]; [right; now apply B|left]. rewrite E. now right.
Qed.

Lemma AI_step : forall s s', AI s -> astep s s' -> AI s'.
Proof.
  intros s s' (ow & F & M & H & S & P) T. destruct T.
  - exists ow. split; [eapply user_FI; eauto|]. split; [eapply user_MI; eauto|]. split; [eapply user_HI; eauto|].
    split; [eapply user_SI; eauto|eapply user_promises; eauto].
  - (* fast *)
    rename H0 into E. pose proof (acq_fin _ _ _ _ _ Acquire F M S H1 H2 eq_refl) as A.
    destruct (fin_read _ _ _ _ M H1 H2) as (FV & _).
    exists ow. split; [|split; [|split; [|split]]]; cbs.
    + one F E (@nil frame).
    + apply MI_put; auto. intros k. eapply rview_le; eauto. apply H1.
    + apply HI_say, HI_put; auto using rview_ge. rewrite E. cbn. 
      destruct r as [|f r]; auto. destruct (f_tail _ _ _ _ F _ _ _ E f) as (? & ? & ->); [now left|]. reflexivity.
    + apply (SI_one _ _ _ _ _ _ _ _ [] _ _ S E); auto using rview_see with om. intros k [].
    + apply promises_ret; auto. apply (f_fin _ _ _ _ F). unfold initialized in *. lia.
  - (* slow *)
    rename H0 into E. exists ow. split; [|split; [|split; [|split]]]; cbs.
    + one F E [FLock g].
    + apply MI_put; auto. intros k. eapply rview_le; eauto. apply H1.
    + apply HI_put; auto using rview_ge. now rewrite E.
    + apply (SI_one _ _ _ _ _ _ _ _ [FLock g] _ _ S E); auto using rview_see with om. intros k [K|[]]; discriminate.
    + auto.
  - (* lock *)
    rename H0 into E. exists ow. split; [|split; [|split; [|split]]]; cbs.
    + one F E [FChk g].
    + apply MI_put; auto. intros k. apply join_le; apply M.
    + apply HI_take; auto. intros k. cbn. lia.
    + apply (SI_one _ _ _ _ _ _ _ _ [FChk g] _ _ S E); auto with om; [cbn; apply incl_appl, incl_refl|]. intros k [K|[]]; discriminate.
    + auto.
  - (* second look: done *)
    rename H0 into E. pose proof (acq_fin _ _ _ _ _ Acquire F M S H1 H2 eq_refl) as A.
    destruct (fin_read _ _ _ _ M H1 H2) as (FV & _).
    exists ow. split; [|split; [|split; [|split]]]; cbs.
    + one F E [FUnl g NRet]. lia.
    + apply MI_put; auto. intros k. eapply rview_le; eauto. apply H1.
    + apply HI_put; auto using rview_ge. now rewrite E.
    + apply (SI_one _ _ _ _ _ _ _ _ [FUnl g NRet] _ _ S E); auto using rview_see with om. intros k [K|[]]. injection K as <-. exact A.
    + auto.
  - (* second look: go on *)
    rename H0 into E. exists ow. split; [|split; [|split; [|split]]]; cbs.
    + one F E [FCas g].
    + apply MI_put; auto. intros k. eapply rview_le; eauto. apply H1.
    + apply HI_put; auto using rview_ge. now rewrite E.
    + apply (SI_one _ _ _ _ _ _ _ _ [FCas g] _ _ S E); auto using rview_see with om. intros k [K|[]]; discriminate.
    + auto.
  - (* the flag is taken *)
    rename H0 into E. assert (C : crit (stk s t) = true) by now rewrite E.
    destruct (holder_top _ _ _ _ M H C H1) as (T1 & T2 & T3).
    assert (W : ow g = None) by (destruct (ow g) as [u|] eqn:W; auto; rewrite (f_some _ _ _ _ F _ _ W) in T2; congruence).
    exists (upd ow g (Some t)). split; [|split; [|split; [|split]]]; cbs.
    + eapply FI_ext; [intros k; symmetry; apply val_upd|]. cbn [m_val wmsg]. eapply FI_take; eauto. congruence.
    + apply MI_wr; auto; [|lia|lia]. intros k. eapply rview_le; eauto. apply H1.
    + eapply HI_wr; eauto; [|rewrite raise_eq; cbn [m_ts wmsg]; lia].
      intros k. pose proof (rview_ge AcqRel (vw s t) g m k). pose proof (raise_ge (rview AcqRel (vw s t) g m) g (Datatypes.S (m_ts m)) k). lia.
    + apply SI_take.
      * apply (SI_one _ _ _ _ _ _ _ _ [FUnl g NRun] _ _ S E); auto with om; [apply (rview_see AcqRel)|]. intros k [K|[]]; discriminate.
      * rewrite upd_eq. eapply sees_mono; [apply (s_top _ _ _ _ _ S _ W)| |intros ? ? ? ?; auto]. rewrite <- T3. now apply (rview_acq AcqRel).
    + auto.
  - (* the flag says: complete *)
    rename H0 into E. pose proof (acq_fin _ _ _ _ _ Acquire F M S H1 H2 eq_refl) as A.
    destruct (fin_read _ _ _ _ M H1 H2) as (FV & _).
    exists ow. split; [|split; [|split; [|split]]]; cbs.
    + one F E [FUnl g NRet]. lia.
    + apply MI_put; auto. intros k. eapply rview_le; eauto. apply H1.
    + apply HI_put; auto using rview_ge. now rewrite E.
    + apply (SI_one _ _ _ _ _ _ _ _ [FUnl g NRet] _ _ S E); auto using rview_see with om. intros k [K|[]]. injection K as <-. exact A.
    + auto.
  - (* wait *)
    rename H0 into E. assert (L : forall k, v_ts (rview Acquire (vw s t) g m) k <= top (mem s) k) by (intros k; eapply rview_le; eauto; apply H1).
    exists ow. split; [|split; [|split; [|split]]]; cbs.
    + one F E [FWait g].
    + eapply MI_mx; [apply MI_put; eauto|auto].
    + apply HI_give; auto using rview_ge. now rewrite E.
    + apply (SI_one _ _ _ _ _ _ _ _ [FWait g] _ _ S E); auto using rview_see with om. intros k [K|[]]; discriminate.
    + auto.
  - (* wake up *)
    rename H0 into E. exists ow. split; [|split; [|split; [|split]]]; cbs.
    + one F E [FCas g].
    + apply MI_put; auto. intros k. apply join_le; apply M.
    + apply HI_take; auto. intros k. cbn. lia.
    + apply (SI_one _ _ _ _ _ _ _ _ [FCas g] _ _ S E); auto with om; [cbn; apply incl_appl, incl_refl|]. intros k [K|[]]; discriminate.
    + auto.
  - (* the function is called *)
    rename H0 into E. destruct (own_one _ _ _ _ F t g _ _ E (Nat.eqb_refl g)) as (W & _).
    exists ow. split; [|split; [|split; [|split]]]; cbs.
    + now apply FI_start.
    + eapply MI_mx; [apply MI_put; eauto; apply M|apply M].
    + apply HI_say, HI_count. apply (HI_give s t (vw s t) (FBody g (nexte s) :: r)); auto. now rewrite E.
    + apply (SI_one _ _ _ _ _ _ _ _ [FBody g (nexte s)] _ _ S E); auto with om. intros k [K|[]]; discriminate.
    + eapply promises_start; eauto. now apply (s_own _ _ _ _ _ S).
  - (* return *)
    rename H0 into E. assert (K : In (FUnl g NRet) (stk s t)) by (rewrite E; now left).
    exists ow. split; [|split; [|split; [|split]]]; cbs.
    + one F E (@nil frame).
    + eapply MI_mx; [apply MI_put; eauto; apply M|apply M].
    + apply HI_say. apply (HI_give s t (vw s t) r); auto; [now rewrite E|].
      destruct r as [|f r]; auto. destruct (f_tail _ _ _ _ F _ _ _ E f) as (? & ? & ->); [now left|]. reflexivity.
    + apply (SI_one _ _ _ _ _ _ _ _ [] _ _ S E); auto with om. intros k [].
    + apply promises_ret; auto; [|now apply (s_ret _ _ _ _ _ S)]. apply (f_fin _ _ _ _ F). now apply (f_fr _ _ _ _ F) in K.
  - (* the exception goes on *)
    rename H0 into E. exists ow. split; [|split; [|split; [|split]]]; cbs.
    + one F E (@nil frame).
    + eapply MI_mx; [apply MI_put; eauto; apply M|apply M].
    + apply HI_say. apply (HI_give s t (vw s t) r); auto; [now rewrite E|].
      destruct r as [|f r]; auto. destruct (f_tail _ _ _ _ F _ _ _ E f) as (? & ? & ->); [now left|]. reflexivity.
    + apply (SI_one _ _ _ _ _ _ _ _ [] _ _ S E); auto with om. intros k [].
    + now apply promises_throw.
  - (* lock before the write *)
    rename H0 into E. assert (K : frame_ok (val (mem s)) (log s) (FDone g e ok)) by (apply (f_fr _ _ _ _ F t); rewrite E; now left).
    exists ow. split; [|split; [|split; [|split]]]; cbs.
    + one F E [FStore g ok]. 
    + apply MI_put; auto. intros k. apply join_le; apply M.
    + apply HI_take; auto. intros k. cbn. lia.
    + apply (SI_one _ _ _ _ _ _ _ _ [FStore g ok] _ _ S E); auto with om; [cbn; apply incl_appl, incl_refl|]. intros k [Q|[]]; discriminate.
    + auto.
  - (* commit *)
    rename H0 into E. assert (C : crit (stk s t) = true) by now rewrite E.
    destruct H1 as (L & _). pose proof (proj1 (h_hold _ H t) C) as Hd. pose proof (h_cur _ H g) as Q. unfold cur in Q. rewrite Hd in Q.
    destruct (own_one _ _ _ _ F t g _ _ E (Nat.eqb_refl g)) as (W & _). pose proof (f_some _ _ _ _ F _ _ W) as V1.
    assert (K : completed g (log s)) by (apply (f_fr _ _ _ _ F t (FStore g true)); rewrite E; now left).
    exists (upd ow g None). split; [|split; [|split; [|split]]]; cbs.
    + eapply FI_ext; [intros k; symmetry; apply val_upd|]. cbn [m_val wmsg].
      apply (FI_store _ _ _ _ F t g (FStore g true) r [FUnl g NRet] initialized (log s)); auto with om.
      * apply Nat.eqb_refl.
      * discriminate.
      * eapply tail_ok; eauto.
      * intros f [<-|[]]. cbn. rewrite upd_eq. auto.
    + apply MI_wr; auto; [apply M|lia|lia].
    + eapply HI_wr; eauto; [apply raise_ge|rewrite raise_eq; cbn [m_ts wmsg]; lia].
    + apply SI_store with (t := t); [|auto|cbn; rewrite upd_eq; apply incl_refl].
      apply (SI_one _ _ _ _ _ _ _ _ [FUnl g NRet] _ _ S E); auto with om. intros k [Z|[]]. injection Z as <-.
      now apply (s_own _ _ _ _ _ S).
    + auto.
  - (* rollback *)
    rename H0 into E. assert (C : crit (stk s t) = true) by now rewrite E.
    destruct H1 as (L & _). pose proof (proj1 (h_hold _ H t) C) as Hd. pose proof (h_cur _ H g) as Q. unfold cur in Q. rewrite Hd in Q.
    destruct (own_one _ _ _ _ F t g _ _ E (Nat.eqb_refl g)) as (W & _). pose proof (f_some _ _ _ _ F _ _ W) as V1.
    assert (K : ~ completed g (log s)) by (apply (f_fr _ _ _ _ F t (FStore g false)); rewrite E; now left).
    exists (upd ow g None). split; [|split; [|split; [|split]]]; cbs.
    + eapply FI_ext; [intros k; symmetry; apply val_upd|]. cbn [m_val wmsg].
      apply (FI_store _ _ _ _ F t g (FStore g false) r [FUnl g NThrow] 0 (log s)); auto with om.
      * apply Nat.eqb_refl.
      * discriminate.
      * eapply tail_ok; eauto.
      * intros f [<-|[]]. exact I.
    + apply MI_wr; auto; [apply M|lia|lia].
    + eapply HI_wr; eauto; [apply raise_ge|rewrite raise_eq; cbn [m_ts wmsg]; lia].
    + apply SI_store with (t := t); [|auto|cbn; rewrite upd_eq; apply incl_refl].
      apply (SI_one _ _ _ _ _ _ _ _ [FUnl g NThrow] _ _ S E); auto with om. intros k [Z|[]]. discriminate.
    + auto.
Qed.

Lemma FI_init : forall W, FI (val (mem (init W))) (fun _ => None) (stk (init W)) (log (init W)).
Proof.
  intros W. constructor; cbn; intros; try contradiction; try discriminate; auto.
  - unfold val in H. cbn in H. lia.
  - intros (t & e & []).
Qed.
Lemma MI_init : forall W, MI (mem (init W)) (vw (init W)) (mxv (init W)).
Proof.
  intros W. constructor; cbn; intros; try discriminate; try lia.
  - injection H as <- <-. destruct H0.
  - destruct H as [<-|[]]. cbn. lia.
Qed.
Lemma SI_init : forall W, SI (mem (init W)) (fun _ => None) (vw (init W)) (stk (init W)) (log (init W)).
Proof. intros W. constructor; cbn; intros; try discriminate; try contradiction. intros t e ok []. Qed.
Lemma HI_init : forall W, HI (init W).
Proof. intros W. constructor; cbn; intros; [lia|]. split; discriminate. Qed.
Lemma promises_nil : promises [].
Proof. split; [|split]; intros [|x l]; intros; discriminate. Qed.

Lemma AI_reach : forall s, reach astep (init 0) s -> AI s.
Proof.
  induction 1.
  - exists (fun _ => None). split; [apply FI_init|]. split; [apply MI_init|]. split; [apply HI_init|].
    split; [apply SI_init|apply promises_nil].
  - eapply AI_step; eauto.
Qed.
