(** * The Windows recursive mutex under release/acquire memory (proofs) *)
From Coq Require Import List Arith Lia Bool.
Import ListNotations.
From Verif Require Import Monitor WM_Model RV_Model RV_Spec.

Lemma upd_eq : forall A (f : nat -> A) t x, upd f t x t = x.
Proof. intros. unfold upd. now rewrite Nat.eqb_refl. Qed.
Lemma upd_ne : forall A (f : nat -> A) t x u, u <> t -> upd f t x u = f u.
Proof. intros. unfold upd. destruct (u =? t) eqn:E; auto. apply Nat.eqb_eq in E. contradiction. Qed.

(** ** Timestamps *)
Fixpoint gapless (ms : list msg) : Prop :=
  match ms with [] => True | m :: r => m_ts m = length r /\ gapless r end.
Lemma gapless_lt : forall ms m, gapless ms -> In m ms -> m_ts m < length ms.
Proof. induction ms as [|x r IH]; cbn; intros m G H; [easy|]. destruct G as [T G], H as [<-|H]; [lia|]. specialize (IH m G H). lia. Qed.
Lemma gapless_has : forall ms n, gapless ms -> n < length ms -> exists m, In m ms /\ m_ts m = n.
Proof.
  induction ms as [|x r IH]; cbn; intros n G L; [lia|]. destruct G as [T G].
  destruct (Nat.eq_dec n (length r)) as [->|N]; [exists x; auto|].
  destruct (IH n G) as (m & H & E); [lia|]. exists m. auto.
Qed.
Lemma rmw_top : forall m0 r m, gapless (m0 :: r) -> In m (m0 :: r) -> free_ts (m0 :: r) (S (m_ts m)) -> m = m0.
Proof.
  intros m0 r m G H F. destruct H as [->|H]; auto. exfalso.
  pose proof (gapless_lt r m (proj2 G) H) as L.
  destruct (gapless_has (m0 :: r) (S (m_ts m)) G) as (x & Hx & E); [cbn; lia|]. now apply (F x).
Qed.
Lemma read_top : forall m0 r m, gapless (m0 :: r) -> In m (m0 :: r) -> m_ts m0 <= m_ts m -> m = m0.
Proof.
  intros m0 r m G H L. destruct H as [->|H]; auto. exfalso. destruct G as [T G]. pose proof (gapless_lt r m G H). lia.
Qed.

(** ** Owner and depth, from the history *)
Fixpoint hs (h : list ev) : option (nat * nat) :=
  match h with
  | [] => None
  | EvGot t :: r => Some (t, 1)
  | EvIn t :: r => match hs r with Some (u, d) => Some (u, S d) | None => None end
  | EvOut t :: r => match hs r with Some (u, d) => Some (u, d - 1) | None => None end
  | EvGive t :: r => None
  | _ :: r => hs r
  end.
Definition isuse (e : nat) (x : ev) : Prop := match x with EvDo _ e' _ | EvCnt _ e' _ => e' = e | _ => False end.
Definition allseen (h : list ev) (saw : list nat) : Prop := forall x e, In x h -> isuse e x -> In e saw.
Fixpoint wellh (h : list ev) : Prop :=
  match h with
  | [] => True
  | EvGot _ :: r => hs r = None /\ wellh r
  | EvIn t :: r => (exists d, hs r = Some (t, S d)) /\ wellh r
  | EvOut t :: r => (exists d, hs r = Some (t, S (S d))) /\ wellh r
  | EvGive t :: r => hs r = Some (t, 1) /\ wellh r
  | EvNo t :: r => (exists u d, u <> t /\ hs r = Some (u, S d)) /\ wellh r
  | (EvDo t e saw | EvCnt t e saw) :: r => (exists d, hs r = Some (t, S d)) /\ allseen r saw /\ wellh r
  end.
Lemma level_hs : forall h, wellh h ->
  (hs h = None -> forall t, level t h = 0) /\
  (forall u d, hs h = Some (u, d) -> level u h = d /\ forall t, t <> u -> level t h = 0).
Proof.
  induction h as [|x h IH]; intros W; [split; [reflexivity|discriminate]|].
  assert (Wh : wellh h) by (destruct x; cbn in W; tauto).
  destruct (IH Wh) as [N O]. clear IH.
  destruct x as [u|u|u|u|u|u e saw|u e saw]; cbn in W; cbn [hs level].
  - destruct W as [E _]. specialize (N E). split; [discriminate|]. intros v d Q. injection Q as <- <-.
    rewrite Nat.eqb_refl, N. split; auto. intros t Ht. destruct (u =? t) eqn:K; [apply Nat.eqb_eq in K; congruence|auto].
  - destruct W as [[d E] _]. destruct (O _ _ E) as [A B]. rewrite E. split; [discriminate|]. intros v d' Q. injection Q as <- <-.
    rewrite Nat.eqb_refl, A. split; auto. intros t Ht. destruct (u =? t) eqn:K; [apply Nat.eqb_eq in K; congruence|auto].
  - auto.
  - destruct W as [[d E] _]. destruct (O _ _ E) as [A B]. rewrite E. split; [discriminate|]. intros v d' Q. injection Q as <- <-.
    rewrite Nat.eqb_refl, A. split; auto. intros t Ht. destruct (u =? t) eqn:K; [apply Nat.eqb_eq in K; congruence|auto].
  - destruct W as [E _]. destruct (O _ _ E) as [A B]. split; [|discriminate]. intros _ t.
    destruct (u =? t) eqn:K; [apply Nat.eqb_eq in K; subst; lia|]. apply B. intros ->. rewrite Nat.eqb_refl in K. discriminate.
  - auto.
  - auto.
Qed.
Lemma wellh_app : forall l h, wellh (l ++ h) -> wellh h.
Proof. induction l as [|x l IH]; intros h W; auto. apply IH. destruct x; cbn in W; tauto. Qed.
Lemma wellh_spec : forall h, wellh h ->
  exclusive h /\ balanced h /\ try_fails_if_owned h /\ effects_seen h /\ count_safe h.
Proof.
  intros h W.
  split; [split|split; [split|split; [|split]]].
  - intros l t b ->. apply wellh_app in W. destruct W as [N W]. now apply (proj1 (level_hs _ W)).
  - intros l t b ->. apply wellh_app in W. destruct W as [[d E] W]. destruct (proj2 (level_hs _ W) _ _ E) as [A B]. split; [lia|auto].
  - intros l t b ->. apply wellh_app in W. destruct W as [E W]. now destruct (proj2 (level_hs _ W) _ _ E) as [A B].
  - intros l t b ->. apply wellh_app in W. destruct W as [[d E] W]. destruct (proj2 (level_hs _ W) _ _ E) as [A B]. lia.
  - intros l t b ->. apply wellh_app in W. destruct W as [(u & d & N & E) W]. destruct (proj2 (level_hs _ W) _ _ E) as [A B]. exists u. split; [auto|lia].
  - intros l t e saw b ->. apply wellh_app in W. destruct W as [[d E] [S W]]. destruct (proj2 (level_hs _ W) _ _ E) as [A B].
    split; [lia|]. intros t' e' saw' H. apply (S _ e' H). reflexivity.
  - intros l t e saw b ->. apply wellh_app in W. destruct W as [[d E] [S W]].
    intros t' e' saw' H. apply (S _ e' H). reflexivity.
Qed.

Section Inv.
  Variables W D : nat.
  Hypothesis HW : 2 <= W.
  Hypothesis HD : D <= W.

  (** Where an owner is: its depth, what recursion_count is (if that is settled), and whether its id is in
      locking_thread_id. *)
  Definition stage (p : pc) : option (nat * option nat * bool) :=
    match p with
    | PIdle 0 => None
    | PIdle l => Some (l, Some (l mod W), true)
    | PIn RUnlock l (RB RUnlock) => Some (l, Some (l mod W), true)
    | PIn RUnlock _ RClr => Some (1, Some 0, true)
    | PIn RUnlock _ RRel => Some (1, Some 0, false)
    | PIn RUnlock _ _ => None
    | PIn _ 0 RId => Some (1, None, false)
    | PIn _ 0 RCnt => Some (1, None, true)
    | PIn _ 0 _ => None
    | PIn _ l _ => Some (l, Some (l mod W), true)
    | PBad => None
    end.
  Definition fine (p : pc) : Prop :=
    match p with
    | PIdle l => l <= D
    | PIn RUnlock l k => match k with RB RUnlock => 1 <= l <= D | RClr | RRel => l = 1 /\ l <= D | _ => False end
    | PIn op l k => l < D /\ match k with
                    | RB op' => op' = op
                    | RInc => 0 < l
                    | RAcq op' => l = 0 /\ op' = op
                    | RGive => l = 0 /\ op = RTimed
                    | RId | RCnt => l = 0
                    | RClr | RRel => False
                    end
    | PBad => False
    end.

  Record INV (s : st) : Prop := {
    i_gap : gapless (idm s);
    i_well : wellh (log s);
    i_pc : forall t, fine (pcs s t);
    i_own : forall t, match stage (pcs s t) with
            | None => hold s <> Some t
            | Some (d, c, b) => hold s = Some t /\ hs (log s) = Some (t, d) /\ (forall n, c = Some n -> cnt s = n) /\
                (b = true -> exists m r, idm s = m :: r /\ m_val m = S t /\ m_ts m <= v_ts (vw s t))
            end;
    i_free : hold s = None -> hs (log s) = None;
    i_held : forall t, hold s = Some t -> exists d, hs (log s) = Some (t, S d);
    i_ne : exists m r, idm s = m :: r;
    i_old : forall m t, In m (idm s) -> m_val m = S t ->
      m_ts m < v_ts (vw s t) \/ (hd_error (idm s) = Some m /\ exists d c, stage (pcs s t) = Some (d, c, true));
    i_see : match hold s with Some t => allseen (log s) (v_see (vw s t)) | None => allseen (log s) (v_see (mxv s)) end }.

  Lemma INV_init : INV init.
  Proof.
    constructor; cbn; auto; try discriminate.
    - intros _. lia.
    - eauto.
    - intros m t [<-|[]]. discriminate.
    - intros x e [].
  Qed.

  (** *** A thread keeps its place in the order *)
  (** Thread [t] goes to [p] with the view [v]; its stage is the same. *)
  Lemma INV_move : forall s t p v, INV s -> fine p -> stage p = stage (pcs s t) ->
    v_ts (vw s t) <= v_ts v -> incl (v_see (vw s t)) (v_see v) ->
    INV (MkSt (idm s) (hold s) (mxv s) (cnt s) (upd (vw s) t v) (upd (pcs s) t p) (log s) (nexte s)).
  Proof.
    intros s t p v I F E L J. destruct I as [G Wl Pc O Fr He Ne Ol Se]. constructor; cbn; auto.
    - intros u. destruct (Nat.eq_dec u t) as [->|N]; [rewrite upd_eq|rewrite upd_ne by auto]; auto.
    - intros u. destruct (Nat.eq_dec u t) as [->|N].
      + rewrite !upd_eq, E. specialize (O t). destruct (stage (pcs s t)) as [[[d c] b]|]; auto.
        destruct O as (O1 & O2 & O3 & O4). repeat split; auto. intros Hb. destruct (O4 Hb) as (m & r & Q1 & Q2 & Q3).
        exists m, r. repeat split; auto. lia.
      + rewrite !upd_ne by auto. apply O.
    - intros m u Hm Hv. destruct (Ol m u Hm Hv) as [K|[K1 K2]].
      + left. destruct (Nat.eq_dec u t) as [->|N]; [rewrite upd_eq; lia|now rewrite upd_ne by auto].
      + right. split; auto. destruct (Nat.eq_dec u t) as [->|N]; [rewrite upd_eq, E; auto|rewrite upd_ne by auto; auto].
    - destruct (hold s) as [u|]; auto. destruct (Nat.eq_dec u t) as [->|N]; [rewrite upd_eq|rewrite upd_ne by auto; auto].
      intros x e Hx He'. apply J. eauto.
  Qed.
  Lemma INV_eqv : forall i h x c V V' P P' l n, (forall u, V u = V' u) -> (forall u, P u = P' u) ->
    INV (MkSt i h x c V P l n) -> INV (MkSt i h x c V' P' l n).
  Proof.
    intros i h x c V V' P P' l n E E' [G Wl Pc O Fr He Ne Ol Se]. cbn in *. constructor; cbn; auto.
    - intros t. rewrite <- E'. apply Pc.
    - intros t. rewrite <- E, <- E'. apply O.
    - intros m t. rewrite <- E, <- E'. apply Ol.
    - destruct h as [u|]; auto. now rewrite <- E.
  Qed.
  Lemma upd_id : forall A (f : nat -> A) t u, upd f t (f t) u = f u.
  Proof. intros. destruct (Nat.eq_dec u t) as [->|N]; [apply upd_eq|now apply upd_ne]. Qed.
  Lemma INV_move0 : forall s t p, INV s -> fine p -> stage p = stage (pcs s t) ->
    INV (MkSt (idm s) (hold s) (mxv s) (cnt s) (vw s) (upd (pcs s) t p) (log s) (nexte s)).
  Proof. intros. eapply INV_eqv; [apply upd_id|reflexivity|]. apply INV_move; auto. apply incl_refl. Qed.

  Lemma allseen_cons : forall x h saw, (forall e, ~ isuse e x) -> allseen h saw -> allseen (x :: h) saw.
  Proof. intros x h saw N S y e [<-|H] U; [now apply N in U|eauto]. Qed.
  Lemma only : forall s t u, INV s -> hold s = Some t -> u <> t -> stage (pcs s u) = None.
  Proof.
    intros s t u I H N. pose proof (i_own _ I u) as O. destruct (stage (pcs s u)) as [[[d c] b]|]; auto.
    destruct O as [O _]. congruence.
  Qed.

  (** The owner uses something: an effect of the user's code or recursion_count. *)
  Lemma INV_use : forall s t xs p c', INV s -> hold s = Some t -> (forall x e, In x xs -> isuse e x -> e = nexte s) ->
    wellh (xs ++ log s) -> fine p ->
    (exists d c, stage p = Some (S d, c, true) /\ hs (xs ++ log s) = Some (t, S d) /\ (forall n, c = Some n -> c' = n)) ->
    (exists d c, stage (pcs s t) = Some (d, c, true)) ->
    INV (MkSt (idm s) (hold s) (mxv s) c' (upd (vw s) t (see (vw s t) (nexte s))) (upd (pcs s) t p) (xs ++ log s) (S (nexte s))).
  Proof.
    intros s t xs p c' I H U Wx F (d & c & E & Hd & Hc) (d0 & c0 & E0).
    pose proof (i_own _ I t) as Ot. rewrite E0 in Ot. destruct Ot as (_ & _ & _ & Om).
    pose proof (fun u => only s t u I H) as On.
    destruct I as [G Wl Pc O Fr He Ne Ol Se]. constructor; cbn [idm hold mxv cnt vw pcs log nexte]; auto.
    - intros u. destruct (Nat.eq_dec u t) as [->|N]; [rewrite upd_eq|rewrite upd_ne by auto]; auto.
    - intros u. destruct (Nat.eq_dec u t) as [->|N].
      + rewrite !upd_eq, E. auto.
      + rewrite !upd_ne by auto. rewrite (On u N). congruence.
    - congruence.
    - intros u Hu. replace u with t in * by congruence. eauto.
    - intros m u Hm Hv. destruct (Ol m u Hm Hv) as [K|[K1 K2]].
      + left. destruct (Nat.eq_dec u t) as [->|N]; [rewrite upd_eq; auto|now rewrite upd_ne by auto].
      + right. split; auto. destruct (Nat.eq_dec u t) as [->|N]; [rewrite upd_eq, E; eauto|rewrite upd_ne by auto; auto].
    - rewrite H in *. rewrite upd_eq. intros y e Hy Uy. apply in_app_or in Hy as [Hy|Hy].
      + apply (U y e) in Hy; auto. subst. now left.
      + right. eauto.
  Qed.

  Lemma mod_le : forall l, l < W -> l mod W = l.
  Proof using W. intros. now apply Nat.mod_small. Qed.

  (** The owner writes its id, or clears it. *)
  Lemma INV_xchg : forall s t p v m d c, INV s -> hold s = Some t -> hd_error (idm s) = Some m -> fine p ->
    stage (pcs s t) = Some (d, c, true) /\ stage p = Some (d, c, false) /\ m_val v = 0 \/
    stage (pcs s t) = Some (d, c, false) /\ stage p = Some (d, c, true) /\ m_val v = S t ->
    m_ts v = S (m_ts m) -> m_ts v <= v_ts (m_view v) -> v_ts (vw s t) <= v_ts (m_view v) -> incl (v_see (vw s t)) (v_see (m_view v)) ->
    INV (MkSt (v :: idm s) (hold s) (mxv s) (cnt s) (upd (vw s) t (m_view v)) (upd (pcs s) t p) (log s) (nexte s)).
  Proof.
    intros s t p v m d c I H Hm F Sg T L1 L2 J.
    pose proof (fun u => only s t u I H) as On. pose proof (i_own _ I t) as Ot.
    assert (Ht : exists b, stage (pcs s t) = Some (d, c, b)) by (destruct Sg as [(Q & _)|(Q & _)]; eauto).
    destruct Ht as [b Ht]. rewrite Ht in Ot. destruct Ot as (_ & Oh & Oc & _).
    destruct I as [G Wl Pc O Fr He Ne Ol Se]. destruct (idm s) as [|m0 r] eqn:Q; [discriminate|]. injection Hm as ->.
    constructor; cbn [idm hold mxv cnt vw pcs log nexte]; auto.
    - cbn in *. destruct G as [G1 G2]. rewrite T, G1. auto.
    - intros u. destruct (Nat.eq_dec u t) as [->|N]; [rewrite upd_eq|rewrite upd_ne by auto]; auto.
    - intros u. destruct (Nat.eq_dec u t) as [->|N].
      + rewrite !upd_eq. destruct Sg as [(_ & -> & _)|(_ & -> & Hv)]; repeat split; auto; try discriminate.
        intros _. eauto 6.
      + rewrite !upd_ne by auto. rewrite (On u N). congruence.
    - eauto.
    - intros x u Hx Hv.
      assert (K : In x (m :: r) -> m_ts x <= m_ts m) by (intros K; pose proof (gapless_lt _ _ G K) as KK; destruct G as [G1 _]; cbn in KK; lia).
      destruct (Nat.eq_dec u t) as [->|N].
      + rewrite !upd_eq. destruct Hx as [<-|Hx]; [|left; specialize (K Hx); lia].
        destruct Sg as [(_ & _ & Z)|(_ & E & _)]; [congruence|]. right. split; [reflexivity|eauto].
      + rewrite !upd_ne by auto. destruct Hx as [<-|Hx].
        * destruct Sg as [(_ & _ & Z)|(_ & E & Z)]; congruence.
        * destruct (Ol x u Hx Hv) as [Z|(_ & d' & c' & Z)]; auto. rewrite (On u N) in Z. discriminate.
    - rewrite H in *. rewrite upd_eq. intros y e Hy Uy. apply J. eauto.
  Qed.

  Lemma INV_step : forall s s', INV s -> step W D s s' -> INV s'.
  Proof.
    intros s s' I St.
    destruct St as [t l op P Pre|t l P|t t' l P|t l P|t op l k past s' ns o P A E|t op l k m past s' ns o P A R E
                   |t op l k m past s' ns o v P A R Fr E Ev|t op l k past s' ns o P A E
                   |t op l k past s' ns o P A Tk E Hh|t op l k past s' ns o P A Tk E Hh|t op l k past s' ns o P A E Hh];
      pose proof (i_pc _ I t) as F; pose proof (i_own _ I t) as Ot; rewrite P in F, Ot.
    - apply INV_move0; auto.
      + cbn in F. destruct op; unfold wrpre in Pre; apply Nat.ltb_lt in Pre; cbn; auto.
      + rewrite P. destruct op, l; cbn in Pre |- *; try discriminate; reflexivity.
    - cbn in Ot. destruct Ot as (H & Hh & Hc & Hm).
      eapply INV_eqv with (P := upd (pcs s) t (pcs s t)); [reflexivity|apply upd_id|].
      refine (INV_use s t [EvDo t (nexte s) (v_see (vw s t))] (pcs s t) (cnt s) I H _ _ _ _ _).
      + intros x e [<-|[]] U. cbn in U. auto.
      + cbn. split; [eauto|]. split; [|apply I]. pose proof (i_see _ I) as S0. now rewrite H in S0.
      + rewrite P. exact F.
      + rewrite P. cbn. do 2 eexists. split; [reflexivity|]. auto.
      + rewrite P. cbn. eauto.
    - eapply INV_eqv with (P := upd (pcs s) t (pcs s t)); [reflexivity|apply upd_id|].
      apply INV_move; auto; [now rewrite P|cbn; lia|cbn; apply incl_appl, incl_refl].
    - cbn in F. destruct F as (F & -> & _). apply INV_move0; auto; [cbn; auto|now rewrite P].
    - destruct k as [[]| | | | | | |]; try discriminate A. cbn in E. injection E as <- <- <-.
      destruct op; cbn in F; try easy; try (destruct F as (F & -> & Z); discriminate Z).
      destruct F as (F & -> & _). apply INV_move0; auto; [cbn; lia|now rewrite P].
    - assert (exists op', op' <> RUnlock /\ k = RB op') as (op' & Nop & ->).
      { destruct k as [op'| | | | | | |]; try discriminate A. exists op'. split; [intros ->; discriminate A|reflexivity]. }
      assert (op' = op /\ op <> RUnlock /\ l < D) as (-> & _ & Ld) by (destruct op, op'; cbn in F; try easy; intuition congruence).
      assert (E' : o = OYield unit bool (if m_val m =? S t then RInc else RAcq op) /\ says t op (RB op) o = []).
      { destruct op; cbn in E; try easy; injection E as <- <- <-; auto. }
      destruct E' as [-> Y]. rewrite Y. cbn [app after].
      destruct R as [R1 R2].
      assert (K : (m_val m =? S t) = (0 <? l)).
      { destruct l as [|l].
        - assert (Z : stage (PIn op 0 (RB op)) = None) by (destruct op; try reflexivity; easy). cbn [Nat.ltb Nat.leb].
          apply Nat.eqb_neq. intros Q. destruct (i_old _ I m t R1 Q) as [B|(_ & d & c & B)]; [lia|]. rewrite P, Z in B. discriminate.
        - assert (Z : stage (PIn op (S l) (RB op)) = Some (S l, Some (S l mod W), true)) by (destruct op; try reflexivity; easy).
          rewrite Z in Ot. destruct Ot as (_ & _ & _ & Om). destruct (Om eq_refl) as (m0 & r & Q1 & Q2 & Q3).
          pose proof (i_gap _ I) as G. rewrite Q1 in G, R1. assert (m = m0) by (eapply read_top; eauto; lia). subst m0.
          cbn. rewrite Q2. apply Nat.eqb_refl. }
      rewrite K. apply INV_move; auto.
      + destruct l; destruct op; cbn; try easy; auto; lia.
      + rewrite P. destruct l; destruct op; try easy; reflexivity.
      + cbn. lia.
      + cbn. apply incl_appl, incl_refl.
    - destruct (i_ne _ I) as (m0 & r & Q). destruct R as [R1 R2]. rewrite Q in R1, Fr. pose proof (i_gap _ I) as G. rewrite Q in G.
      assert (m = m0) by (eapply rmw_top; eauto). subst m0.
      destruct k as [[]| | | | | | |]; try discriminate A; cbn in E; injection E as <- <- <-; cbn [says app after rid].
      + assert (op <> RUnlock /\ l = 0 /\ 0 < D) as (Nop & -> & Dp) by (destruct op; cbn in F; try easy; intuition (try discriminate; lia)).
        assert (Z : stage (PIn op 0 RId) = Some (1, None, false)) by (destruct op; try reflexivity; easy).
        rewrite Z in Ot. destruct Ot as (H & _).
        refine (INV_xchg s t (PIn op 0 RCnt) (MkMsg (S (m_ts m)) (S t) v) m 1 None I H _ _ _ eq_refl _ _ _).
        * now rewrite Q.
        * destruct op; cbn; auto; easy.
        * right. rewrite P. repeat split; auto. destruct op; try reflexivity; easy.
        * subst v. cbn. lia.
        * subst v. cbn. lia.
        * subst v. cbn. apply incl_appl, incl_refl.
      + assert (op = RUnlock /\ l = 1 /\ l <= D) as (-> & -> & Dp) by (destruct op; cbn in F; intuition easy).
        cbn in Ot. destruct Ot as (H & _).
        refine (INV_xchg s t (PIn RUnlock 1 RRel) (MkMsg (S (m_ts m)) 0 v) m 1 (Some 0) I H _ _ _ eq_refl _ _ _).
        * now rewrite Q.
        * cbn. auto.
        * left. rewrite P. repeat split; auto.
        * subst v. cbn. lia.
        * subst v. cbn. lia.
        * subst v. cbn. apply incl_appl, incl_refl.
    - (* recursion_count *)
      assert (Sn : hold s = Some t -> allseen (log s) (v_see (vw s t))) by (intros H; pose proof (i_see _ I) as S0; now rewrite H in S0).
      destruct k as [[]| | | | | | |]; try discriminate A; unfold wrfrag in E; cbn [rcount rid held] in E.
      + (* unlock *)
        assert (op = RUnlock) as -> by (destruct op; cbn in F; intuition easy).
        cbn in F. destruct l as [|l]; [lia|]. cbn in Ot. destruct Ot as (H & Hh & Hc & Hm). specialize (Hc _ eq_refl). specialize (Sn H).
        assert (N : match cnt s with 0 => W - 1 | S n => n end = l).
        { rewrite Hc. destruct (Nat.eq_dec (S l) W) as [Z|Z].
          - rewrite Z, Nat.mod_same by lia. lia.
          - rewrite mod_le by lia. reflexivity. }
        rewrite N in E. destruct l as [|l]; cbn [Nat.eqb] in E; injection E as <- <- <-; cbn [says app after rcount].
        * refine (INV_use s t [EvCnt t (nexte s) (v_see (vw s t))] (PIn RUnlock 1 RClr) 0 I H _ _ _ _ _).
          -- intros x e [<-|[]] U. cbn in U. auto.
          -- cbn. split; [eauto|]. split; [auto|apply I].
          -- cbn. lia.
          -- cbn. do 2 eexists. split; [reflexivity|]. split; auto. intros n Z. now injection Z.
          -- rewrite P. cbn. eauto.
        * refine (INV_use s t [EvOut t; EvCnt t (nexte s) (v_see (vw s t))] (PIdle (S (S l) - 1)) (S l) I H _ _ _ _ _).
          -- intros x e [<-|[<-|[]]] U; cbn in U; [easy|auto].
          -- cbn. split; [eauto|]. split; [eauto|]. split; [auto|apply I].
          -- cbn. lia.
          -- cbn. rewrite Hh. do 2 eexists. split; [reflexivity|]. split; auto. intros n Z. injection Z as <-. symmetry. now apply mod_le; lia.
          -- rewrite P. cbn. eauto.
      + (* ++ *)
        assert (op <> RUnlock /\ 0 < l /\ l < D) as (Nop & Lp & Ld) by (destruct op; cbn in F; intuition (try discriminate; lia)).
        destruct l as [|l]; [lia|].
        assert (Z : stage (PIn op (S l) RInc) = Some (S l, Some (S l mod W), true)) by (destruct op; try reflexivity; easy).
        rewrite Z in Ot. destruct Ot as (H & Hh & Hc & Hm). specialize (Hc _ eq_refl). specialize (Sn H).
        injection E as <- <- <-. cbn [says app after rcount].
        assert (Nx : wrnext (S l) op true = S (S l)) by (destruct op; try reflexivity; easy). rewrite Nx.
        refine (INV_use s t [EvIn t; EvCnt t (nexte s) (v_see (vw s t))] (PIdle (S (S l))) (S (cnt s) mod W) I H _ _ _ _ _).
        * intros x e [<-|[<-|[]]] U; cbn in U; [easy|auto].
        * cbn. split; [eauto|]. split; [eauto|]. split; [auto|apply I].
        * cbn. lia.
        * cbn [stage app hs]. rewrite Hh. do 2 eexists. split; [reflexivity|]. split; auto. intros n Q. injection Q as <-.
          rewrite Hc, (mod_le (S l)) by lia. reflexivity.
        * rewrite P, Z. eauto.
      + (* = 1 *)
        assert (op <> RUnlock /\ l = 0 /\ 0 < D) as (Nop & -> & Dp) by (destruct op; cbn in F; intuition (try discriminate; lia)).
        assert (Z : stage (PIn op 0 RCnt) = Some (1, None, true)) by (destruct op; try reflexivity; easy).
        rewrite Z in Ot. destruct Ot as (H & Hh & Hc & Hm). specialize (Sn H).
        injection E as <- <- <-. cbn [says app after rcount].
        assert (Nx : wrnext 0 op true = 1) by (destruct op; try reflexivity; easy). rewrite Nx.
        refine (INV_use s t [EvCnt t (nexte s) (v_see (vw s t))] (PIdle 1) 1 I H _ _ _ _ _).
        * intros x e [<-|[]] U; cbn in U; auto.
        * cbn. split; [eauto|]. split; [auto|apply I].
        * cbn. lia.
        * cbn [stage app hs]. do 2 eexists. split; [reflexivity|]. split; auto. intros n Q. injection Q as <-. symmetry. apply mod_le. lia.
        * rewrite P, Z. eauto.
    - (* the mutex is taken *)
      rewrite Tk in E. assert (Hn : hold s = None) by (unfold taken in Tk; destruct (hold s); auto; discriminate).
      destruct k as [[]| | | | | | |]; try discriminate A; cbn in E; injection E as <- <- <-; [|discriminate Hh].
      assert (op0 = op /\ op <> RUnlock /\ l = 0 /\ 0 < D) as (-> & Nop & -> & Dp) by (destruct op; cbn in F; try easy; intuition (try discriminate; lia)).
      cbn [says app after]. destruct I as [G Wl Pc O Fr He Ne Ol Se]. rewrite Hn in *. specialize (Fr eq_refl).
      assert (Z : stage (PIn op 0 RId) = Some (1, None, false)) by (destruct op; try reflexivity; easy).
      constructor; cbn [idm hold mxv cnt vw pcs log nexte]; auto.
      + cbn. auto.
      + intros u. destruct (Nat.eq_dec u t) as [->|N]; [rewrite upd_eq|rewrite upd_ne by auto; auto]. destruct op; cbn; auto; easy.
      + intros u. destruct (Nat.eq_dec u t) as [->|N].
        * rewrite !upd_eq, Z. cbn. repeat split; auto; discriminate.
        * rewrite !upd_ne by auto. specialize (O u). destruct (stage (pcs s u)) as [[[d c] b]|]; [destruct O; discriminate|congruence].
      + discriminate.
      + intros u Hu. injection Hu as <-. cbn. eauto.
      + intros m u Hm Hv. destruct (Ol m u Hm Hv) as [K|(_ & d & c & K)].
        * left. destruct (Nat.eq_dec u t) as [->|N]; [rewrite upd_eq; cbn; lia|now rewrite upd_ne by auto].
        * specialize (O u). rewrite K in O. destruct O; discriminate.
      + rewrite upd_eq. apply allseen_cons; [easy|]. intros y e Hy Uy. cbn. apply in_or_app. right. eauto.
    - (* it is not free *)
      rewrite Tk in E.
      destruct k as [[]| | | | | | |]; try discriminate A; [|cbn in E; injection E as <- <- <-; discriminate Hh].
      assert (op0 = op /\ op <> RUnlock /\ l = 0 /\ 0 < D) as (-> & Nop & -> & Dp) by (destruct op; cbn in F; try easy; intuition (try discriminate; lia)).
      assert (Z : stage (PIn op 0 (RAcq op)) = None) by (destruct op; try reflexivity; easy). rewrite Z in Ot.
      destruct op; try easy; cbn in E; injection E as <- <- <-; cbn [says app after wrnext].
      + apply INV_move0; auto. now rewrite P.
      + assert (B : INV (MkSt (idm s) (hold s) (mxv s) (cnt s) (vw s) (upd (pcs s) t (PIdle 0)) (log s) (nexte s))).
        { apply INV_move0; auto; [cbn; lia|now rewrite P]. }
        assert (T : exists u, u <> t /\ hold s = Some u).
        { unfold taken in Tk. destruct (hold s) as [u|]; [|discriminate]. exists u. split; congruence. }
        destruct T as (u & Nu & Hu). destruct (i_held _ I u Hu) as [d Hd].
        destruct B as [G Wl Pc O Fr He Ne Ol Se]. cbn [idm hold mxv cnt vw pcs log nexte] in *.
        constructor; cbn [idm hold mxv cnt vw pcs log nexte]; auto.
        * cbn. split; eauto.
        * rewrite Hu in *. apply allseen_cons; [easy|auto].
      + apply INV_move0; auto. now rewrite P.
    - (* the mutex is given up *)
      destruct k as [[]| | | | | | |]; try discriminate A.
      { cbn in E. destruct (taken s); [destruct op0|]; injection E as <- <- <-; discriminate Hh. }
      cbn in E. injection E as <- <- <-. assert (op = RUnlock /\ l = 1) as (-> & ->) by (destruct op; cbn in F; intuition easy).
      cbn [says app after wrnext Nat.sub]. cbn in Ot. destruct Ot as (H & Hs & _ & _).
      pose proof (fun u => only s t u I H) as On.
      destruct I as [G Wl Pc O Fr He Ne Ol Se]. constructor; cbn [idm hold mxv cnt vw pcs log nexte]; auto; try discriminate.
      + cbn. auto.
      + intros u. destruct (Nat.eq_dec u t) as [->|N]; [rewrite upd_eq; cbn; lia|rewrite upd_ne by auto; auto].
      + intros u. destruct (Nat.eq_dec u t) as [->|N]; [rewrite upd_eq; discriminate|]. rewrite upd_ne, (On u N) by auto. discriminate.
      + intros m u Hm Hv. destruct (Ol m u Hm Hv) as [K|(_ & d & c & K)]; auto.
        destruct (Nat.eq_dec u t) as [->|N]; [rewrite P in K; discriminate|]. rewrite (On u N) in K. discriminate.
      + rewrite H in Se. apply allseen_cons; [easy|auto].
  Qed.
  Lemma INV_reach : forall s, reach W D s -> INV s.
  Proof. induction 1; eauto using INV_init, INV_step. Qed.

  (** A thread at the underlying mutex does not own it. *)
  Lemma owner_short : forall s t l op op', reach W D s -> pcs s t = PIn op l (RAcq op') -> level t (log s) = 0.
  Proof.
    intros s t l op op' R P. pose proof (INV_reach s R) as I. pose proof (i_pc _ I t) as F. pose proof (i_own _ I t) as O. rewrite P in F, O.
    assert (N : hold s <> Some t).
    { destruct op; cbn in F; try easy; destruct F as (_ & -> & _); exact O. }
    destruct (level_hs _ (i_well _ I)) as [L0 L1]. destruct (hold s) as [u|] eqn:H.
    - destruct (i_held _ I u H) as [d Hd]. apply (L1 _ _ Hd). congruence.
    - apply L0. now apply (i_free _ I).
  Qed.
End Inv.
