(** * The Windows shared_mutex under release/acquire memory: what the owners see (proofs) *)
From Verif Require Import WS_Errors XV_Model XV_Spec XV_Base.

Lemma upd_eq : forall A (f : nat -> A) t x, upd f t x t = x.
Proof. intros. unfold upd. now rewrite Nat.eqb_refl. Qed.
Lemma upd_ne : forall A (f : nat -> A) t x u, u <> t -> upd f t x u = f u.
Proof. intros. unfold upd. destruct (u =? t) eqn:E; auto. apply Nat.eqb_eq in E. contradiction. Qed.

(** ** Timestamps *)
Fixpoint gapless (ms : list msg) : Prop :=
  match ms with [] => True | m :: r => m_ts m = length r /\ gapless r end.
Lemma gapless_lt : forall ms m, gapless ms -> In m ms -> m_ts m < length ms.
Proof. induction ms as [|x r IH]; cbn; intros m G H; [easy|]. destruct G as [T G], H as [<-|H]; [lia|]. specialize (IH m G H). lia. Qed.
Lemma gapless_has : forall ms n, gapless ms -> n < length ms -> exists m, In m ms /\ m_ts m = n.
Proof.
  induction ms as [|x r IH]; cbn; intros n G L; [lia|]. destruct G as [T G].
  destruct (Nat.eq_dec n (length r)) as [->|N]; [exists x; auto|].
  destruct (IH n G) as (m & H & E); [lia|]. exists m. auto.
Qed.
Lemma rmw_top : forall m0 r m, gapless (m0 :: r) -> In m (m0 :: r) -> free_ts (m0 :: r) (S (m_ts m)) -> m = m0.
Proof.
  intros m0 r m G H F. destruct H as [->|H]; auto. exfalso.
  pose proof (gapless_lt r m (proj2 G) H) as L.
  destruct (gapless_has (m0 :: r) (S (m_ts m)) G) as (x & Hx & E); [cbn; lia|]. now apply (F x).
Qed.
Lemma with_wd_id : forall b, with_wd b (wd b) = b.
Proof. now intros []. Qed.

Definition alluses (h : list ev) (saw : list nat) : Prop := forall t e w s, In (EvUse t e w s) h -> In e saw.
Definition allwrites (h : list ev) (saw : list nat) : Prop := forall t e s, In (EvUse t e true s) h -> In e saw.
Fixpoint wellh (h : list ev) : Prop :=
  match h with
  | [] => True
  | EvUse _ _ w saw :: r => (if w then alluses r saw else allwrites r saw) /\ wellh r
  end.
Lemma wellh_app : forall l h, wellh (l ++ h) -> wellh h.
Proof. induction l as [|x l IH]; intros h W; auto. apply IH. destruct x; cbn in W; tauto. Qed.
Lemma wellh_spec : forall h, wellh h -> race_free h.
Proof.
  intros h W l t e w saw b -> t' e' w' saw' H D. apply wellh_app in W. destruct W as [S _]. destruct w.
  - exact (S _ _ _ _ H).
  - destruct D as [D|D]; [discriminate|]. subst w'. exact (S _ _ _ H).
Qed.

Definition le (a b : view) : Prop := forall e, In e (v_see a) -> In e (v_see b).
Lemma le_refl : forall a, le a a. Proof. now intros a e. Qed.
Lemma le_join1 : forall a b, le a (join a b). Proof. intros a b e H. cbn. apply in_or_app. auto. Qed.
Lemma le_join2 : forall a b, le b (join a b). Proof. intros a b e H. cbn. apply in_or_app. auto. Qed.

Record VI (T : list thr) (m0 : msg) (V : nat -> view) (Q : list view) (L : list ev) : Prop := {
  v_use : forall t e w s, In (EvUse t e w s) L -> In e (v_see (m_view m0)) \/
    exists u x, nth_error T u = Some x /\ owner (t_own x) /\ In e (v_see (V u));
  v_wr : forall t e s, In (EvUse t e true s) L -> In e (v_see (m_view m0)) \/
    exists u x, nth_error T u = Some x /\ t_own x = MExcl /\ In e (v_see (V u));
  v_ex : forall u x, nth_error T u = Some x -> t_own x = MExcl -> alluses L (v_see (V u));
  v_sh : forall u x, nth_error T u = Some x -> t_own x <> MNone -> allwrites L (v_see (V u));
  v_dp : forall u x, nth_error T u = Some x -> 0 < dP x -> alluses L (v_see (V u));
  v_sp : forall v, In v Q -> alluses L (v_see v) }.

Record INV (s : st) : Prop := {
  i_base : InvR (base s);
  i_gap : gapless (mem s);
  i_top : exists m0 r, mem s = m0 :: r /\ m_val m0 = wd (base s) /\ VI (thrs (base s)) m0 (vw s) (spv s) (log s);
  i_len : length (spv s) = ps (base s);
  i_well : wellh (log s) }.

Lemma INV_init : forall n, INV (start n).
Proof.
  intros n. constructor; cbn; auto.
  - apply invR_init.
  - do 2 eexists. split; [reflexivity|]. split; [reflexivity|]. split; cbn; try easy.
Qed.

(** Steps that change no ownership. *)
Lemma VI_same : forall T m0 V Q L t x y V', VI T m0 V Q L -> nth_error T t = Some x -> t_own y = t_own x -> dP y <= dP x ->
  (forall u, le (V u) (V' u)) -> VI (set_thr T t y) m0 V' Q L.
Proof.
  intros T m0 V Q L t x y V' [A1 A2 A3 A4 A5 A6] Hx Eo Ed M.
  assert (F : forall u z, nth_error (set_thr T t y) u = Some z -> exists z', nth_error T u = Some z' /\ t_own z = t_own z' /\ dP z <= dP z').
  { intros u z Hz. destruct (Nat.eq_dec t u) as [<-|N].
    - rewrite (nth_set_same _ _ _ Hx) in Hz. injection Hz as <-. eauto.
    - rewrite nth_set_other in Hz by auto. eauto. }
  assert (G : forall u z, nth_error T u = Some z -> exists z', nth_error (set_thr T t y) u = Some z' /\ t_own z' = t_own z).
  { intros u z Hz. destruct (Nat.eq_dec t u) as [<-|N].
    - rewrite Hx in Hz. injection Hz as <-. exists y. split; [apply (nth_set_same _ _ _ Hx)|auto].
    - exists z. rewrite nth_set_other by auto. auto. }
  constructor; auto.
  - intros u e w s H. destruct (A1 _ _ _ _ H) as [K|(u' & z & Hz & O & K)]; [auto|right].
    destruct (G _ _ Hz) as (z' & Hz' & E). exists u', z'. rewrite E. repeat split; auto. now apply M.
  - intros u e s H. destruct (A2 _ _ _ H) as [K|(u' & z & Hz & O & K)]; [auto|right].
    destruct (G _ _ Hz) as (z' & Hz' & E). exists u', z'. rewrite E. repeat split; auto. now apply M.
  - intros u z Hz O u' e w s H. destruct (F _ _ Hz) as (z' & Hz' & E & _). apply M. rewrite E in O. exact (A3 _ _ Hz' O _ _ _ _ H).
  - intros u z Hz O u' e s H. destruct (F _ _ Hz) as (z' & Hz' & E & _). apply M. rewrite E in O. exact (A4 _ _ Hz' O _ _ _ H).
  - intros u z Hz O u' e w s H. destruct (F _ _ Hz) as (z' & Hz' & E & D). apply M. assert (O' : 0 < dP z') by lia. exact (A5 _ _ Hz' O' _ _ _ _ H).
Qed.
Lemma set_self : forall T t x, nth_error T t = Some x -> set_thr T t x = T.
Proof. induction T as [|z T IH]; intros [|t] x H; cbn in *; try discriminate; [now injection H as ->|]. now rewrite IH. Qed.
Lemma upd_le : forall (V : nat -> view) t v, le (V t) v -> forall u, le (V u) (upd V t v u).
Proof. intros V t v H u. destruct (Nat.eq_dec u t) as [->|N]; [now rewrite upd_eq|rewrite upd_ne by auto; apply le_refl]. Qed.

(** A compare-exchange that succeeds. *)
Lemma VI_cas : forall b b' t x y m0 m1 V Q L, VI (thrs b) m0 V Q L -> InvR b' -> nth_error (thrs b) t = Some x -> thrs b' = set_thr (thrs b) t y ->
  le (V t) (m_view m1) -> le (m_view m0) (m_view m1) -> VI (thrs b') m1 (upd V t (m_view m1)) Q L.
Proof.
  intros b b' t x y m0 m1 V Q L [A1 A2 A3 A4 A5 A6] I Hx ET M1 M2.
  assert (Hy : nth_error (thrs b') t = Some y) by (rewrite ET; apply (nth_set_same _ _ _ Hx)).
  assert (Ho : forall u, u <> t -> nth_error (thrs b') u = nth_error (thrs b) u) by (intros u N; rewrite ET; apply nth_set_other; auto).
  assert (B1 : forall t0 e w s, In (EvUse t0 e w s) L -> In e (v_see (m_view m1)) \/
    exists u x, u <> t /\ nth_error (thrs b') u = Some x /\ owner (t_own x) /\ In e (v_see (V u))).
  { intros t0 e w s H. destruct (A1 _ _ _ _ H) as [K|(u & z & Hz & O & K)]; [left; now apply M2|].
    destruct (Nat.eq_dec u t) as [->|N]; [left; now apply M1|]. right. exists u, z. rewrite Ho; auto. }
  assert (B2 : forall t0 e s, In (EvUse t0 e true s) L -> In e (v_see (m_view m1)) \/
    exists u x, u <> t /\ nth_error (thrs b') u = Some x /\ t_own x = MExcl /\ In e (v_see (V u))).
  { intros t0 e s H. destruct (A2 _ _ _ H) as [K|(u & z & Hz & O & K)]; [left; now apply M2|].
    destruct (Nat.eq_dec u t) as [->|N]; [left; now apply M1|]. right. exists u, z. rewrite Ho; auto. }
  constructor; auto.
  - intros t0 e w s H. destruct (B1 _ _ _ _ H) as [K|(u & z & N & Hz & O & K)]; [auto|right]. exists u, z. rewrite upd_ne; auto.
  - intros t0 e s H. destruct (B2 _ _ _ H) as [K|(u & z & N & Hz & O & K)]; [auto|right]. exists u, z. rewrite upd_ne; auto.
  - intros u z Hz O. destruct (Nat.eq_dec u t) as [->|N].
    + rewrite upd_eq. intros t0 e w s H. destruct (B1 _ _ _ _ H) as [K|(u & z' & N & Hz' & O' & K)]; auto.
      destruct (@excl_alone _ _ _ I Hz O) as (X & _). rewrite (X _ _ Hz' N) in O'. destruct O' as [O'|[O'|O']]; discriminate.
    + rewrite upd_ne by auto. rewrite Ho in Hz by auto. eauto.
  - intros u z Hz O. destruct (Nat.eq_dec u t) as [->|N].
    + rewrite upd_eq. intros t0 e s H. destruct (B2 _ _ _ H) as [K|(u & z' & N & Hz' & O' & K)]; auto.
      destruct (@excl_alone _ _ _ I Hz' O') as (X & _). now rewrite (X _ _ Hz (not_eq_sym N)) in O.
    + rewrite upd_ne by auto. rewrite Ho in Hz by auto. eauto.
  - intros u z Hz O. destruct (Nat.eq_dec u t) as [->|N].
    + rewrite upd_eq. intros t0 e w s H. destruct (B1 _ _ _ _ H) as [K|(u & z' & N & Hz' & O' & K)]; auto.
      destruct (@giving _ _ _ I Hz O _ _ Hz' O').
    + rewrite upd_ne by auto. rewrite Ho in Hz by auto. eauto.
Qed.

Lemma INV_step : forall s s', INV s -> step s s' -> INV s'.
Proof.
  intros s s' [IB IG (m0 & r & EM & ET & IV) IL IW] H. rewrite EM in IG. destruct H.
  - (* call *)
    destruct (@step_call _ _ _ _ H) as (W & P & x & y & Hx & Et & Eo & Ed). constructor; cbn [base mem vw spv log]; try rewrite EM; auto.
    + eapply invR_exec; eauto.
    + exists m0, r. rewrite W, Et. do 2 (split; [auto|]). eapply VI_same; eauto; [lia|intros; apply le_refl].
    + now rewrite P.
  - (* timeout *)
    destruct (@step_late _ _ _ H) as (W & P & x & y & Hx & Et & Eo & Ed). constructor; cbn [base mem vw spv log]; try rewrite EM; auto.
    + eapply invR_exec; eauto.
    + exists m0, r. rewrite W, Et. do 2 (split; [auto|]). eapply VI_same; eauto; [lia|intros; apply le_refl].
    + now rewrite P.
  - (* use *)
    assert (Ho : owner m).
    { assert (Ht : thr_ok (Thr PIdle m)).
      { apply (i_thr IB t). cbn [dummy thrs]. rewrite nth_error_app1; auto. apply nth_error_Some. congruence. }
      cbn in Ht. unfold owner. destruct m; auto; try easy; try (destruct Ht; discriminate). }
    assert (Z : (forall u z, nth_error (thrs (base s)) u = Some z -> u <> t -> t_own z = MExcl -> False) /\
                (w = true -> forall u z, nth_error (thrs (base s)) u = Some z -> u <> t -> t_own z = MNone) /\ ps (base s) = 0 /\
                forall u z, nth_error (thrs (base s)) u = Some z -> dP z = 0).
    { destruct (mode_eqb m MExcl) eqn:K.
      - assert (m = MExcl) by (destruct m; easy). subst m. destruct (@excl_alone _ _ _ IB H eq_refl) as (A & B & C). repeat split; auto.
        intros u z Hz N E. rewrite (A u z Hz N) in E. discriminate.
      - assert (O : t_own (Thr PIdle m) = MShared \/ t_own (Thr PIdle m) = MUpgrade) by (destruct Ho as [ -> | [ -> | -> ] ]; auto; discriminate).
        destruct (@shared_ok _ _ _ IB H O) as (A & B & C). repeat split; auto.
        + intros u z Hz _. exact (A u z Hz).
        + intros Ew. rewrite (H1 Ew) in K. discriminate. }
    destruct Z as (Z1 & Z2 & Z3 & Z4). destruct IV as [A1 A2 A3 A4 A5 A6].
    assert (Q : spv s = []) by (destruct (spv s); [auto|cbn in IL; lia]).
    constructor; cbn [base mem vw spv log]; try rewrite EM; auto.
    + exists m0, r. do 2 (split; [auto|]). constructor.
      * intros t0 e w0 s0 [E|E].
        -- injection E as <- <- <- <-. right. eexists t, _. rewrite upd_eq. repeat split; eauto. now left.
        -- destruct (A1 _ _ _ _ E) as [K|(u & z & Hz & O & K)]; [auto|right]. exists u, z. repeat split; auto.
           apply (upd_le (vw s) t (see (vw s t) (nexte s))); [intros e0 He; now right|auto].
      * intros t0 e s0 [E|E].
        -- injection E as <- <- -> <-. right. eexists t, _. rewrite upd_eq. split; [exact H|]. split; [now apply H1|now left].
        -- destruct (A2 _ _ _ E) as [K|(u & z & Hz & O & K)]; [auto|right]. exists u, z. repeat split; auto.
           apply (upd_le (vw s) t (see (vw s t) (nexte s))); [intros e0 He; now right|auto].
      * intros u z Hz O. destruct (Nat.eq_dec u t) as [->|N]; [|destruct (Z1 u z Hz N O)]. rewrite upd_eq.
        intros t0 e w0 s0 [E|E]; [injection E as <- <- <- <-; now left|]. right. eapply A3; eauto.
      * intros u z Hz O. destruct (Nat.eq_dec u t) as [->|N].
        -- rewrite upd_eq. intros t0 e s0 [E|E]; [injection E as <- <- _ _; now left|]. right. eapply A4; eauto.
        -- rewrite upd_ne by auto. intros t0 e s0 [E|E]; [|eapply A4; eauto]. injection E as <- <- -> <-. now destruct (O (Z2 eq_refl u z Hz N)).
      * intros u z Hz O. rewrite (Z4 _ _ Hz) in O. lia.
      * rewrite Q. easy.
    + split; auto. destruct w.
      * apply (A3 _ _ H). now apply H1.
      * apply (A4 _ _ H). auto.
  - (* sync *)
    constructor; cbn [base mem vw spv log]; try rewrite EM; auto. exists m0, r. do 2 (split; [auto|]).
    rewrite <- (set_self _ _ _ H). eapply VI_same; eauto. apply upd_le, le_join1.
  - (* none *)
    pose proof (@invR_exec _ _ _ IB H1) as IB'. destruct (@exec_inv _ _ _ H1) as (x' & Hx' & R). rewrite H in Hx'. injection Hx' as <-.
    destruct (@run_none _ _ _ _ H H0 R) as (W & P & y & Et & Eo & Ed). constructor; cbn [base mem vw spv log]; try rewrite EM; auto.
    + exists m0, r. rewrite W, Et. do 2 (split; [auto|]). eapply VI_same; eauto; [lia|intros; apply le_refl].
    + now rewrite P.
  - (* load *)
    destruct (@exec_inv _ _ _ H2) as (x' & Hx' & R). cbn [with_wd thrs] in Hx'. rewrite H in Hx'. injection Hx' as <-.
    destruct (@run_stale _ _ _ (m_val m) _ IB H (or_introl H0) R) as (IB' & P & y & Et & Eo & Ed). constructor; cbn [base mem vw spv log]; try rewrite EM; auto.
    + exists m0, r. cbn [with_wd wd thrs]. rewrite Et. do 2 (split; [auto|]). eapply VI_same; eauto; [lia|]. apply upd_le. intros e K. exact K.
    + cbn [with_wd ps]. now rewrite P.
  - (* fail *)
    destruct (@exec_inv _ _ _ H3) as (x' & Hx' & R). cbn [with_wd thrs] in Hx'. rewrite H in Hx'. injection Hx' as <-.
    destruct (@run_stale _ _ _ (m_val m) _ IB H (or_intror (ex_intro _ old (conj H0 H2))) R) as (IB' & P & y & Et & Eo & Ed).
    constructor; cbn [base mem vw spv log]; try rewrite EM; auto.
    + exists m0, r. cbn [with_wd wd thrs]. rewrite Et. do 2 (split; [auto|]). eapply VI_same; eauto; [lia|]. apply upd_le.
      intros e K. cbn. apply in_or_app. auto.
    + cbn [with_wd ps]. now rewrite P.
  - (* cas *)
    destruct H1 as [Hm _]. rewrite EM in *. pose proof (@rmw_top _ _ _ IG Hm H3) as ->. rewrite ET, with_wd_id in *.
    pose proof (@invR_exec _ _ _ IB H4) as IB'. destruct (@exec_inv _ _ _ H4) as (x' & Hx' & R). rewrite H in Hx'. injection Hx' as <-.
    destruct (@run_cas _ _ _ _ _ H H0 R) as (P & y & Et). constructor; cbn [base mem vw spv log]; auto.
    + split; auto. cbn. destruct IG as [-> _]. reflexivity.
    + do 2 eexists. split; [reflexivity|]. split; [reflexivity|].
      change v with (m_view (MkMsg (S (m_ts m0)) (wd b') v)) at 2. eapply (@VI_cas (base s) b'); eauto; cbn [m_view]; subst v; intros e K; cbn; apply in_or_app; auto.
    + now rewrite P.
  - (* post *)
    pose proof (@invR_exec _ _ _ IB H1) as IB'. destruct (@exec_inv _ _ _ H1) as (x' & Hx' & R). rewrite H in Hx'. injection Hx' as <-.
    destruct (@run_post _ _ _ _ _ H H0 R) as (W & P & y & Et & Eo & Ed). constructor; cbn [base mem vw spv log]; try rewrite EM; auto.
    + exists m0, r. rewrite W, Et. do 2 (split; [auto|]). assert (IV' : VI (set_thr (thrs (base s)) t y) m0 (vw s) (spv s) (log s)) by (eapply VI_same; eauto; [lia|intros; apply le_refl]).
      destruct IV' as [A1 A2 A3 A4 A5 A6]. constructor; auto.
      intros v Hv. apply in_app_or in Hv. destruct Hv as [Hv|Hv]; [|now apply (v_sp _ _ _ _ _ IV)].
      pose proof Hv as Hn. apply repeat_spec in Hv. subst v. apply (v_dp _ _ _ _ _ IV _ _ H). destruct n; [destruct Hn|lia].
    + rewrite app_length, repeat_length, P, IL. lia.
  - (* pend *)
    pose proof (@invR_exec _ _ _ IB H1) as IB'. destruct (@exec_inv _ _ _ H1) as (x' & Hx' & R). rewrite H in Hx'. injection Hx' as <-.
    destruct (@run_pend _ _ _ _ IB H H0 R) as (W & P & Em & y & Et & Eo & Ed).
    assert (Hy : nth_error (thrs b') t = Some y) by (rewrite Et; apply (nth_set_same _ _ _ H)).
    assert (Ho : forall u, u <> t -> nth_error (thrs b') u = nth_error (thrs (base s)) u) by (intros u N; rewrite Et; apply nth_set_other; auto).
    destruct IV as [A1 A2 A3 A4 A5 A6].
    constructor; cbn [base mem vw spv log]; try rewrite EM; auto.
    + exists m0, r. rewrite W. split; [reflexivity|]. split; [auto|].
      assert (M : forall u, le (vw s u) (upd (vw s) t (join (vw s t) v) u)) by (apply upd_le, le_join1).
      constructor.
      * intros t0 e w s0 K. destruct (A1 _ _ _ _ K) as [K'|(u & z & Hz & O & K')]; [auto|right].
        destruct (Nat.eq_dec u t) as [->|N].
        -- exists t, y. split; [auto|]. split; [rewrite Eo; unfold owner; auto|now apply M].
        -- exists u, z. rewrite Ho by auto. repeat split; auto. now apply M.
      * intros t0 e s0 K. destruct (A2 _ _ _ K) as [K'|(u & z & Hz & O & K')]; [auto|right].
        destruct (Nat.eq_dec u t) as [->|N].
        -- exists t, y. repeat split; auto. now apply M.
        -- exists u, z. rewrite Ho by auto. repeat split; auto. now apply M.
      * intros u z Hz O. destruct (Nat.eq_dec u t) as [->|N].
        -- rewrite upd_eq. intros t0 e w s0 K. apply le_join2. eapply A6; eauto. rewrite H2. apply in_or_app. right. now left.
        -- rewrite Ho in Hz by auto. rewrite upd_ne by auto. eauto.
      * intros u z Hz O. destruct (Nat.eq_dec u t) as [->|N].
        -- rewrite upd_eq. intros t0 e s0 K. apply le_join2. eapply A6; eauto. rewrite H2. apply in_or_app. right. now left.
        -- rewrite Ho in Hz by auto. rewrite upd_ne by auto. eauto.
      * intros u z Hz O. destruct (Nat.eq_dec u t) as [->|N].
        -- rewrite Hy in Hz. injection Hz as <-. lia.
        -- rewrite Ho in Hz by auto. rewrite upd_ne by auto. eauto.
      * intros v' Hv. apply A6. rewrite H2. apply in_app_or in Hv. apply in_or_app. destruct Hv; auto. right. now right.
    + rewrite H2 in IL. rewrite app_length in *. cbn in IL. lia.
Qed.
Theorem INV_reaches : forall n s, reaches n s -> INV s.
Proof. intros n s H. induction H; [apply INV_init|eapply INV_step; eauto]. Qed.

(** ** What the threads hold, from the calls and returns *)
Definition Ran (n : nat) (b : sys) : Prop := length (thrs b) = n /\ forall e, In e (hist b) -> ev_of e < n.
Lemma ran_exec : forall n b l b', Ran n b -> exec b l = Some b' -> Ran n b'.
Proof.
  intros n b l b' [L R] H. split; [rewrite (exec_len _ _ H); auto|]. intros e He. destruct (exec_hist _ _ H) as (t & Ht & [E|(e' & E & Et)]); rewrite E in He.
  - auto.
  - destruct He as [ <- |He]; [|auto]. congruence.
Qed.
Lemma ran_reaches : forall n s, reaches n s -> Ran n (base s).
Proof.
  intros n s H. induction H as [|s s' H IH St]; [split; [apply repeat_length|intros e []]|].
  destruct St; cbn [base]; auto; try (eapply ran_exec; eauto; fail).
  - assert (IH' : Ran n (with_wd (base s) (m_val m))) by exact IH. exact (ran_exec _ _ _ _ IH' H3).
  - assert (IH' : Ran n (with_wd (base s) (m_val m))) by exact IH. exact (ran_exec _ _ _ _ IH' H4).
  - assert (IH' : Ran n (with_wd (base s) (m_val m))) by exact IH. exact (ran_exec _ _ _ _ IH' H5).
Qed.
Lemma holds_app : forall t n h, t <> n -> holds t (h ++ [ECall n Lock]) = holds t h.
Proof.
  intros t n h N. induction h as [|[u o|u o r] h IH]; cbn.
  - destruct (Nat.eqb_spec n t); congruence.
  - now rewrite IH.
  - now rewrite IH.
Qed.
Lemma owner_base : forall b t x, InvR b -> nth_error (thrs b) t = Some x -> holds t (hist b) <> HNone ->
  match holds t (hist b) with
  | HNone => True
  | HShared => t_own x = MShared \/ t_own x = MUpgrade \/ t_own x = MExcl
  | HUpgrade => t_own x = MUpgrade \/ t_own x = MPend \/ t_own x = MExcl
  | HExclusive => t_own x = MExcl
  end.
Proof.
  intros b t x I Hx H. assert (L : t < length (thrs b)) by (apply nth_error_Some; congruence).
  assert (Hx' : nth_error (thrs (dummy b)) t = Some x) by (cbn [dummy thrs]; rewrite nth_error_app1; auto).
  pose proof (@owner_of (dummy b) t x I Hx') as O. cbn [dummy hist] in O. rewrite holds_app in O by lia. exact (O H).
Qed.
Theorem exclusion : forall n s i j, reaches n s -> i <> j ->
  compatible (holds i (hist (base s))) (holds j (hist (base s))) = true.
Proof.
  intros n s i j Hr Hne. pose proof (i_base _ (INV_reaches _ _ Hr)) as I. destruct (ran_reaches _ _ Hr) as [L R].
  assert (P : forall t, holds t (hist (base s)) <> HNone -> exists x, nth_error (thrs (base s)) t = Some x).
  { intros t Ht. destruct (nth_error (thrs (base s)) t) as [x|] eqn:E; [eauto|]. exfalso. apply nth_error_None in E.
    destruct (@outside t (hist (base s))) as [A _]; [|auto]. intros e He Q. specialize (R e He). lia. }
  destruct (holds i (hist (base s))) eqn:Ei; [reflexivity| | |]; (destruct (holds j (hist (base s))) eqn:Ej; [reflexivity| | |]); try reflexivity; exfalso.
  all: destruct (P i) as [x Hx]; [congruence|]; destruct (P j) as [y Hy]; [congruence|].
  all: pose proof (@owner_base (base s) i x I Hx) as Oi; pose proof (@owner_base (base s) j y I Hy) as Oj; rewrite Ei in Oi; rewrite Ej in Oj;
    specialize (Oi ltac:(discriminate)); specialize (Oj ltac:(discriminate)).
  all: destruct (phase I) as [K1 K2].
  all: pose proof (@total_ge2 cS _ i x j y Hx Hy Hne); pose proof (@total_ge2 cU _ i x j y Hx Hy Hne);
    pose proof (@total_ge2 cP _ i x j y Hx Hy Hne); pose proof (@total_ge2 cX _ i x j y Hx Hy Hne).
  all: unfold cS, cU, cP, cX in *.
  all: repeat match goal with H : _ \/ _ |- _ => destruct H end.
  all: repeat match goal with H : t_own _ = _ |- _ => rewrite H in * end; cbn [mode_eqb b2n] in *.
  all: destruct (ex (wd (base s))), (up (wd (base s))); try contradiction; lia.
Qed.
Theorem no_race : forall n s, reaches n s -> race_free (log s).
Proof. intros n s H. apply wellh_spec, i_well, (INV_reaches _ _ H). Qed.
