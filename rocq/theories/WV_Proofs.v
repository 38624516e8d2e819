(** * The Windows mutex under release/acquire memory (proofs) *)
From Coq Require Import List Arith Lia Bool.
Import ListNotations.
From Verif Require Import Monitor WM_Model WV_Model WV_Spec.

Lemma upd_eq : forall A (f : nat -> A) t x, upd f t x t = x.
Proof. intros. unfold upd. now rewrite Nat.eqb_refl. Qed.
Lemma upd_ne : forall A (f : nat -> A) t x u, u <> t -> upd f t x u = f u.
Proof. intros. unfold upd. destruct (u =? t) eqn:E; auto. apply Nat.eqb_eq in E. contradiction. Qed.

(** ** Timestamps: without gaps, so that an interlocked operation that writes has read the newest write *)
Fixpoint gapless (ms : list msg) : Prop :=
  match ms with [] => True | m :: r => m_ts m = length r /\ gapless r end.
Lemma gapless_lt : forall ms m, gapless ms -> In m ms -> m_ts m < length ms.
Proof. induction ms as [|x r IH]; cbn; intros m G H; [easy|]. destruct G, H as [<-|H]; [lia|]. specialize (IH m H1 H). lia. Qed.
Lemma gapless_has : forall ms n, gapless ms -> n < length ms -> exists m, In m ms /\ m_ts m = n.
Proof.
  induction ms as [|x r IH]; cbn; intros n G L; [lia|]. destruct G as [T G].
  destruct (Nat.eq_dec n (length r)) as [->|N]; [exists x; auto|].
  destruct (IH n G) as (m & H & E); [lia|]. exists m. auto.
Qed.
Lemma rmw_top : forall m0 r m, gapless (m0 :: r) -> In m (m0 :: r) -> free_ts (m0 :: r) (S (m_ts m)) -> m = m0.
Proof.
  intros m0 r m G H F. destruct H as [->|H]; auto. exfalso.
  pose proof (gapless_lt r m (proj2 G) H) as L.
  destruct (gapless_has (m0 :: r) (S (m_ts m)) G) as (x & Hx & E); [cbn; lia|]. now apply (F x).
Qed.

(** ** The owner, from the history *)
Fixpoint holder (h : list ev) : option nat :=
  match h with
  | [] => None
  | EvGot t :: _ => Some t
  | EvGive _ :: _ => None
  | _ :: r => holder r
  end.
(** Taken when free, released by the owner. *)
Fixpoint wellh (h : list ev) : Prop :=
  match h with
  | [] => True
  | EvGot _ :: r => holder r = None /\ wellh r
  | EvGive t :: r => holder r = Some t /\ wellh r
  | EvNo _ :: r => holder r <> None /\ wellh r
  | EvDo t e saw :: r => holder r = Some t /\ (forall t' e' saw', In (EvDo t' e' saw') r -> In e' saw) /\ wellh r
  end.
Lemma owns_holder : forall h t, wellh h -> (owns h t <-> holder h = Some t).
Proof.
  induction h as [|x h IH]; intros t W.
  { split; [|discriminate]. intros (l & b & E & _). destruct l; discriminate. }
  assert (K : forall u, wellh h -> x <> EvGive u -> (exists u', x = EvGot u') \/ (owns (x :: h) u <-> owns h u)).
  { intros u Wh N. destruct x as [u'|u'|u'|u' e saw]; [eauto|right|right|right];
      (split; [intros (l & b & E & F); destruct l as [|y l]; [discriminate|]; injection E as <- ->; exists l, b; split; auto; intros H; apply F; now right
              |intros (l & b & -> & F); eexists (_ :: l), b; split; [reflexivity|]; intros [H|H]; [congruence|auto]]). }
  destruct x as [u|u|u|u e saw]; cbn [wellh holder] in W |- *.
  - destruct W as [N W]. split.
    + intros (l & b & E & F). destruct l as [|y l]; [now injection E as -> _|]. injection E as <- ->.
      assert (holder (l ++ EvGot t :: b) = Some t) as H; [|rewrite H in N; discriminate].
      apply IH; auto. exists l, b. split; auto. intros H. apply F. now right.
    + intros E. injection E as <-. exists [], h. auto.
  - destruct (K t) as [[u' Q]|Q]; [tauto|discriminate|discriminate|]. rewrite Q. apply IH. tauto.
  - destruct W as [N W]. split; [|discriminate]. intros (l & b & E & F). destruct l as [|y l]; [discriminate|]. injection E as <- ->.
    assert (t <> u) as D by (intros ->; apply F; now left).
    assert (holder (l ++ EvGot t :: b) = Some t) as H; [|congruence].
    apply IH; auto. exists l, b. split; auto. intros H. apply F. now right.
  - destruct (K t) as [[u' Q]|Q]; [tauto|discriminate|discriminate|]. rewrite Q. apply IH. tauto.
Qed.
Lemma wellh_app : forall l h, wellh (l ++ h) -> wellh h.
Proof. induction l as [|x l IH]; intros h W; auto. apply IH. destruct x; cbn in W; tauto. Qed.
Lemma wellh_spec : forall h, wellh h -> exclusive h /\ try_fails_if_owned h /\ effects_seen h.
Proof.
  intros h W. split; [|split].
  - intros l t b -> t' O. apply wellh_app in W. destruct W as [N W]. apply owns_holder in O; auto. congruence.
  - intros l t b ->. apply wellh_app in W. destruct W as [N W]. destruct (holder b) as [t'|] eqn:E; [|easy].
    exists t'. now apply owns_holder.
  - intros l t e saw b ->. apply wellh_app in W. destruct W as (E & S & W). split; auto. now apply owns_holder.
Qed.

(** ** Invariant *)
Definition sees (h : list ev) (v : view) : Prop := forall t e saw, In (EvDo t e saw) h -> In e (v_see v).
Definition fits (op : wop) (k : wkk) : Prop :=
  match op, k with
  | OUnlock, (KB OUnlock | KEvt | KSet) => True
  | OUnlock, _ => False
  | OTry, KB OTry => True
  | OTry, _ => False
  | OLock, KB op' => op' = OLock
  | OTimed, KB op' => op' = OTimed
  | _, (KEvt | KSet) => False
  | _, _ => True
  end.
Definition has (p : pc) : Prop := p = PIdle true \/ p = PIn OUnlock (KB OUnlock).
Definition fine (p : pc) : Prop := match p with PIdle _ => True | PIn op k => fits op k | PBad => False end.

Record INV (s : st) : Prop := {
  i_gap : gapless (mem s);
  i_well : wellh (log s);
  i_own : forall t, has (pcs s t) <-> holder (log s) = Some t;
  i_pc : forall t, fine (pcs s t);
  i_lk : exists m r, mem s = m :: r /\ (lk (m_val m) = true <-> holder (log s) <> None) /\
           match holder (log s) with Some t => sees (log s) (vw s t) | None => sees (log s) (m_view m) end }.

Lemma INV_init : INV init.
Proof.
  constructor; cbn; auto.
  - intros t. split; [intros [H|H]; discriminate|discriminate].
  - eexists _, _. split; [reflexivity|]. cbn. split; [split; [discriminate|easy]|]. intros t e saw [].
Qed.

(** Steps that say nothing and do not change who has the mutex. *)
Lemma own_keep : forall (P : nat -> pc) t p h, (forall u, has (P u) <-> holder h = Some u) -> (has p <-> has (P t)) ->
  forall u, has (upd P t p u) <-> holder h = Some u.
Proof.
  intros P t p h O E u. destruct (Nat.eq_dec u t) as [->|N]; [rewrite upd_eq, E|rewrite upd_ne by auto]; apply O.
Qed.
Lemma pc_keep : forall (P : nat -> pc) t p, (forall u, fine (P u)) -> fine p -> forall u, fine (upd P t p u).
Proof. intros P t p F Fp u. destruct (Nat.eq_dec u t) as [->|N]; [rewrite upd_eq|rewrite upd_ne by auto]; auto. Qed.
Lemma sees_incl : forall h v v', sees h v -> incl (v_see v) (v_see v') -> sees h v'.
Proof. intros h v v' S I t e saw H. eapply I, S, H. Qed.

(** What a step of the code does to the flag, where the caller is, and what is said. *)
Definition chg (t : nat) (op : wop) (k : wkk) (w w' : word) (o : outcome wkk unit bool) : Prop :=
  fine (after op o) /\
  ((says t op k o = [] /\ lk w' = lk w /\ (has (after op o) <-> has (PIn op k)))
   \/ (says t op k o = [EvGot t] /\ lk w = false /\ lk w' = true /\ has (after op o) /\ ~ has (PIn op k))
   \/ (says t op k o = [EvGive t] /\ lk w' = negb (lk w) /\ ~ has (after op o) /\ has (PIn op k))
   \/ (says t op k o = [EvNo t] /\ lk w = true /\ lk w' = true /\ (has (after op o) <-> has (PIn op k)))).

Lemma word_eqb_ok : forall a b, word_eqb a b = true -> a = b.
Proof.
  intros [a1 a2 a3] [b1 b2 b3] H. unfold word_eqb in H. cbn in H.
  apply andb_prop in H as [H H3]. apply andb_prop in H as [H1 H2].
  apply eqb_prop in H1. apply eqb_prop in H2. apply Nat.eqb_eq in H3. now subst.
Qed.

Ltac nohas := let H := fresh in try (split; intros H); unfold has in *; try tauto; try (destruct H as [H|H]; discriminate H);
  try (intros [H1|H1]; discriminate H1).
Lemma frag_none : forall t op k w e past s' ns o, fits op k -> accesses k = ANone ->
  wfrag t past k (MkM w e) = (s', ns, o) -> fine (after op o) /\ says t op k o = [] /\ (has (after op o) <-> has (PIn op k)).
Proof.
  intros t op k w e past s' ns o F A E.
  destruct k; try discriminate A; cbn in E.
  - destruct past; injection E as <- <- <-; destruct op; cbn in *; try tauto; repeat split; auto; nohas.
  - destruct e; injection E as <- <- <-; destruct op; cbn in *; try tauto; repeat split; auto; nohas.
  - injection E as <- <- <-. destruct op; cbn in *; try tauto; repeat split; auto; nohas.
Qed.
Lemma frag_read : forall t op k w e past s' ns o, fits op k -> accesses k = APlain ->
  wfrag t past k (MkM w e) = (s', ns, o) -> fine (after op o) /\ says t op k o = [] /\ (has (after op o) <-> has (PIn op k)).
Proof.
  intros t op k w e past s' ns o F A E.
  destruct k; try discriminate A; cbn in E.
  injection E as <- <- <-; destruct op; cbn in *; try tauto; repeat split; auto; nohas.
Qed.
Lemma frag_fail : forall t op k w e past s' ns o, fits op k -> accesses k = ARmw -> stores k w = false ->
  wfrag t past k (MkM w e) = (s', ns, o) -> fine (after op o) /\ says t op k o = [] /\ (has (after op o) <-> has (PIn op k)).
Proof.
  intros t op k w e past s' ns o F A S E.
  destruct k; try discriminate A; cbn in S; try discriminate S; cbn in E; rewrite S in E;
    injection E as <- <- <-; destruct op; cbn in *; try tauto; repeat split; auto; nohas.
Qed.
Ltac fin := cbn; try tauto; repeat split; auto; nohas.
Lemma frag_rmw : forall t op k w e past s' ns o, fits op k -> accesses k = ARmw -> stores k w = true ->
  wfrag t past k (MkM w e) = (s', ns, o) -> chg t op k w (wd s') o.
Proof.
  intros t op k w e past s' ns o F A S E. unfold chg.
  destruct k; try discriminate A; cbn in E.
  - (* the first operation of a call *)
    destruct op0; cbn in E.
    + destruct (lk w) eqn:L; injection E as <- <- <-; destruct op; cbn in F; try easy.
      * split; [fin|]. left. fin.
      * split; [fin|]. right. left. fin.
    + destruct (lk w) eqn:L; injection E as <- <- <-; destruct op; cbn in F; try easy.
      * split; [fin|]. right. right. right. fin.
      * split; [fin|]. right. left. fin.
    + destruct (lk w) eqn:L; injection E as <- <- <-; destruct op; cbn in F; try easy.
      * split; [fin|]. left. fin.
      * split; [fin|]. right. left. fin.
    + destruct op; cbn in F; try easy.
      match type of E with (if ?b then _ else _) = _ => destruct b end; injection E as <- <- <-.
      * split; [fin|]. right. right. left. fin.
      * split; [fin|]. right. right. left. fin.
  - cbn in S. rewrite S in E. apply word_eqb_ok in S. subst old.
    destruct (lk w) eqn:L; injection E as <- <- <-; destruct op; cbn in F; try easy.
    all: split; [destruct timed; fin|].
    all: try (left; destruct timed; fin; fail).
    all: right; left; fin.
  - injection E as <- <- <-; destruct op; cbn in F; try easy; (split; [fin|]; left; fin).
  - cbn in S. rewrite S in E. apply word_eqb_ok in S. subst old.
    destruct (lk w) eqn:L; injection E as <- <- <-; destruct op; cbn in F; try easy.
    all: split; [destruct timed; fin|].
    all: try (left; destruct timed; fin; fail).
    all: right; left; fin.
  - destruct (es w) eqn:L; injection E as <- <- <-; destruct op; cbn in F; try easy; (split; [fin|]; left; fin).
Qed.

(** ** Every step keeps it *)
Lemma nohas_log : forall t op k o h, says t op k o = [] -> says t op k o ++ h = h.
Proof. intros t op k o h ->. reflexivity. Qed.

(** A silent step that writes nothing. *)
Lemma INV_quiet : forall s t op k p v, INV s -> pcs s t = PIn op k -> fine p -> (has p <-> has (PIn op k)) ->
  incl (v_see (vw s t)) (v_see v) -> INV (MkSt (mem s) (upd (vw s) t v) (upd (pcs s) t p) (log s) (nexte s)).
Proof.
  intros s t op k p v I P F H L. destruct I as [G W O C (m & r & E & K & S)]. constructor; cbn; auto.
  - apply own_keep; auto. now rewrite P.
  - now apply pc_keep.
  - exists m, r. split; [auto|]. split; [auto|]. destruct (holder (log s)) as [u|]; auto.
    destruct (Nat.eq_dec u t) as [->|N]; [rewrite upd_eq; eauto using sees_incl|rewrite upd_ne; auto].
Qed.
Lemma upd_self : forall A (f : nat -> A) t, (fun u => upd f t (f t) u) = upd f t (f t).
Proof. reflexivity. Qed.
Lemma INV_eqv : forall M V V' P h n, (forall u, V u = V' u) -> INV (MkSt M V P h n) -> INV (MkSt M V' P h n).
Proof.
  intros M V V' P h n E [G W O C (m & r & Em & K & S)]. constructor; auto. exists m, r. split; [auto|]. split; [auto|].
  cbn in *. destruct (holder h) as [u|]; auto. now rewrite <- E.
Qed.
Lemma upd_id : forall A (f : nat -> A) t u, upd f t (f t) u = f u.
Proof. intros. destruct (Nat.eq_dec u t) as [->|N]; [apply upd_eq|now apply upd_ne]. Qed.

Lemma sees_log : forall x h v, (forall t e saw, x <> EvDo t e saw) -> sees h v -> sees (x :: h) v.
Proof. intros x h v N S t e saw [H|H]; [now apply N in H|eauto]. Qed.

Lemma INV_step : forall s s', INV s -> step s s' -> INV s'.
Proof.
  intros s s' I St. destruct St as [t l op P Pre|t P|t t' l P|t op k w e past s' ns o P A E|t op k m e past s' ns o P A R E
                                    |t op k m e past s' ns o P A R Sf E|t op k m e past s' ns o v P A R Sf Fr E Ev].
  - (* call *)
    destruct I as [G W O C (m & r & Em & K & S)]. constructor; cbn; auto.
    + apply own_keep; auto. rewrite P. destruct l, op; cbn in Pre; try discriminate; unfold has; intuition discriminate.
    + apply pc_keep; auto. destruct op; cbn; auto.
    + exists m, r. auto.
  - (* an effect *)
    destruct I as [G W O C (m & r & Em & K & S)].
    assert (Hh : holder (log s) = Some t) by (apply O; rewrite P; now left).
    rewrite Hh in S. constructor; cbn; auto.
    exists m, r. split; [auto|]. split; [auto|]. rewrite Hh, upd_eq.
    intros u e saw [H|H]; [injection H as <- <- <-; now left|right; eauto].
  - (* synchronisation elsewhere *)
    destruct I as [G W O C (m & r & Em & K & S)]. constructor; cbn; auto.
    exists m, r. split; [auto|]. split; [auto|]. destruct (holder (log s)) as [u|]; auto.
    destruct (Nat.eq_dec u t) as [->|N]; [rewrite upd_eq|rewrite upd_ne; auto].
    eapply sees_incl; eauto. cbn. apply incl_appl, incl_refl.
  - pose proof (i_pc _ I t) as F. rewrite P in F.
    destruct (frag_none _ _ _ _ _ _ _ _ _ F A E) as (F' & Y & Hh). rewrite (nohas_log _ _ _ _ _ Y).
    eapply INV_eqv; [apply upd_id|]. eapply INV_quiet; eauto. apply incl_refl.
  - pose proof (i_pc _ I t) as F. rewrite P in F.
    destruct (frag_read _ _ _ _ _ _ _ _ _ F A E) as (F' & Y & Hh). rewrite (nohas_log _ _ _ _ _ Y).
    eapply INV_quiet; eauto. apply incl_refl.
  - pose proof (i_pc _ I t) as F. rewrite P in F.
    destruct (frag_fail _ _ _ _ _ _ _ _ _ F A Sf E) as (F' & Y & Hh). rewrite (nohas_log _ _ _ _ _ Y).
    eapply INV_quiet; eauto. cbn. apply incl_appl, incl_refl.
  - pose proof (i_pc _ I t) as F. rewrite P in F.
    destruct (frag_rmw _ _ _ _ _ _ _ _ _ F A Sf E) as (F' & Ch).
    destruct I as [G W O C (m0 & r & Em & K & S)]. destruct R as [R _]. rewrite Em in R, Fr, G.
    assert (m = m0) by (eapply rmw_top; eauto). subst m0. clear R.
    assert (V1 : incl (v_see (vw s t)) (v_see v)) by (subst v; cbn; apply incl_appl, incl_refl).
    assert (V2 : incl (v_see (m_view m)) (v_see v)) by (subst v; cbn; apply incl_appr, incl_refl).
    clear Ev.
    assert (G' : gapless (MkMsg (Datatypes.S (m_ts m)) (wd s') v :: mem s)).
    { rewrite Em. destruct G as [T G]. cbn. auto. }
    assert (Hp : has (PIn op k) <-> holder (log s) = Some t) by (rewrite <- P; apply O).
    destruct Ch as [(Y & L & Hh)|[(Y & L0 & L & Hh & Hn)|[(Y & L & Hh & Hn)|(Y & L0 & L & Hh)]]]; rewrite Y.
    + (* silent *)
      constructor; cbn; auto.
      * apply own_keep; auto. now rewrite P.
      * now apply pc_keep.
      * eexists _, _. split; [reflexivity|]. cbn. rewrite L. split; [auto|]. destruct (holder (log s)) as [u|].
        -- destruct (Nat.eq_dec u t) as [->|N]; [rewrite upd_eq|rewrite upd_ne by auto]; eauto using sees_incl.
        -- eauto using sees_incl.
    + (* taken *)
      assert (Hf : holder (log s) = None).
      { destruct (holder (log s)); auto. rewrite L0 in K. assert (false = true) by (apply K; discriminate). discriminate. }
      rewrite Hf in *. constructor; cbn; auto.
      * intros u. destruct (Nat.eq_dec u t) as [->|N]; [rewrite upd_eq; tauto|]. rewrite upd_ne by auto. rewrite O. split; congruence.
      * now apply pc_keep.
      * eexists _, _. split; [reflexivity|]. cbn. rewrite L. split; [split; auto; discriminate|]. rewrite upd_eq.
        apply sees_log; [discriminate|]. eauto using sees_incl.
    + (* released *)
      assert (Hf : holder (log s) = Some t) by now apply Hp.
      rewrite Hf in *. assert (lk (m_val m) = true) as L1 by (apply K; discriminate). rewrite L1 in L.
      constructor; cbn; auto.
      * intros u. destruct (Nat.eq_dec u t) as [->|N]; [rewrite upd_eq; split; [tauto|discriminate]|]. rewrite upd_ne by auto.
        rewrite O. split; congruence.
      * now apply pc_keep.
      * eexists _, _. split; [reflexivity|]. cbn. rewrite L. split; [split; [discriminate|easy]|].
        apply sees_log; [discriminate|]. eauto using sees_incl.
    + (* refused *)
      assert (Hf : holder (log s) <> None) by now apply K.
      constructor; cbn; auto.
      * apply own_keep; auto. now rewrite P.
      * now apply pc_keep.
      * eexists _, _. split; [reflexivity|]. cbn. rewrite L. split; [tauto|]. destruct (holder (log s)) as [u|]; [|easy].
        apply sees_log; [discriminate|].
        destruct (Nat.eq_dec u t) as [->|N]; [rewrite upd_eq|rewrite upd_ne by auto]; eauto using sees_incl.
Qed.
Lemma INV_reach : forall s, reach s -> INV s.
Proof. induction 1; eauto using INV_init, INV_step. Qed.
