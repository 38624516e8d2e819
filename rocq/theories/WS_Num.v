(** * The Windows shared_mutex: the arithmetic of the word and the semaphores *)
From Verif Require Export WS_Spec.
Set Implicit Arguments.

(** ** Sums over the threads *)
Fixpoint total (f : thr -> nat) (l : list thr) : nat := match l with [] => 0 | x :: l' => f x + total f l' end.

Lemma total_set : forall f l t x y, nth_error l t = Some x -> total f (set_thr l t y) + f x = total f l + f y.
Proof.
  intros f. induction l as [|z l IH]; intros [|t] x y H; cbn in *; try discriminate.
  - injection H as ->. lia.
  - specialize (IH t x y H). lia.
Qed.
Lemma total_ge : forall f l t x, nth_error l t = Some x -> f x <= total f l.
Proof. intros f. induction l as [|z l IH]; intros [|t] x H; cbn in *; try discriminate; [injection H as ->; lia|specialize (IH _ _ H); lia]. Qed.
Lemma total_ge2 : forall f l t x t' x', nth_error l t = Some x -> nth_error l t' = Some x' -> t <> t' -> f x + f x' <= total f l.
Proof.
  intros f. induction l as [|z l IH]; intros [|t] x [|t'] x' H H' Hne; cbn in *; try discriminate; try congruence.
  - injection H as ->. pose proof (total_ge f l t' H'). lia.
  - injection H' as ->. pose proof (total_ge f l t H). lia.
  - assert (t <> t') by congruence. specialize (IH _ _ _ _ H H' H0). lia.
Qed.
Lemma total_pos : forall f l, total f l > 0 -> exists t x, nth_error l t = Some x /\ f x > 0.
Proof.
  intros f. induction l as [|z l IH]; cbn; intros H; [lia|]. destruct (f z) eqn:E.
  - destruct IH as (t & x & Hx & Hf); [lia|]. exists (S t), x. auto.
  - exists 0, z. cbn. split; [reflexivity|lia].
Qed.
Lemma total_zero : forall f l, (forall t x, nth_error l t = Some x -> f x = 0) -> total f l = 0.
Proof.
  intros f. induction l as [|z l IH]; cbn; intros H; [reflexivity|]. pose proof (H 0 z eq_refl). rewrite IH; [lia|].
  intros t x Hx. exact (H (S t) x Hx).
Qed.
Lemma nth_set_same : forall l t x y, nth_error l t = Some x -> nth_error (set_thr l t y) t = Some y.
Proof. induction l as [|z l IH]; intros [|t] x y H; cbn in *; try discriminate; [reflexivity|eauto]. Qed.
Lemma nth_set_other : forall l t t' y, t <> t' -> nth_error (set_thr l t y) t' = nth_error l t'.
Proof. induction l as [|z l IH]; intros [|t] [|t'] y H; cbn; try reflexivity; try congruence. apply IH. congruence. Qed.
Lemma length_set : forall l t y, length (set_thr l t y) = length l.
Proof. induction l as [|z l IH]; intros [|t] y; cbn; auto. Qed.

(** ** What is counted *)
Definition b2n (b : bool) : nat := if b then 1 else 0.
Definition cS (x : thr) := b2n (mode_eqb (t_own x) MShared).
Definition cU (x : thr) := b2n (mode_eqb (t_own x) MUpgrade).
Definition cP (x : thr) := b2n (mode_eqb (t_own x) MPend).
Definition cX (x : thr) := b2n (mode_eqb (t_own x) MExcl).
Definition cW (x : thr) := match t_pc x with PSleep o _ | PGive o _ | PRel o _ (KGive _) => b2n (is_writer o) | _ => 0 end.
Definition cR (x : thr) := match t_pc x with PSleep o _ | PGive o _ | PRel o _ (KGive _) => b2n (negb (is_writer o)) | _ => 0 end.
Fixpoint of_sem (f : sem -> bool) (l : list (sem * nat)) : nat :=
  match l with [] => 0 | (a, n) :: l' => (if f a then n else 0) + of_sem f l' end.
Definition isU (a : sem) := match a with SU => true | _ => false end.
Definition isE (a : sem) := match a with SE => true | _ => false end.
Definition isP (a : sem) := match a with SP => true | _ => false end.
Definition rels (x : thr) := match t_pc x with PRel _ l _ => l | _ => [] end.
Definition dU (x : thr) := of_sem isU (rels x).
Definition dE (x : thr) := of_sem isE (rels x).
Definition dP (x : thr) := of_sem isP (rels x).
Definition free (w : word) : bool := negb (pos (sc w)) && negb (ex w).
Definition cA (x : thr) :=
  match t_pc x with
  | PRead o | PGive o _ | PRel o _ (KGive _) => b2n (is_writer o)
  | PCas o old => b2n (is_writer o && free old)
  | _ => 0
  end.

(** ** The invariant on the word, the semaphores and the sums *)
Record num (w : word) (u e p nS nU nP nX nW nR qU qE qP nA : nat) : Prop := {
  n_sc : sc w = nS + nU;
  n_phase : match ex w, up w with
            | false, true => nU + nP = 1 /\ nX = 0 /\ sc w > 0 /\ p + qP = 0
            | true, false => sc w = 0 /\ nX + nP = 1 /\ p + qP = nP
            | false, false => nU + nP + nX = 0 /\ p + qP = 0
            | true, true => False
            end;
  n_scm : sc w <= shared_max; n_swm : sw w <= shared_max; n_ewm : ew w <= exclusive_max;
  n_W : nW <= e + ew w + qE;
  n_R : nR + e + qE <= u + sw w + qU;
  n_ewb : ewb w = true -> ew w > 0;
  n_free : free w = true -> sw w = 0 /\ ewb w = false;
  n_act : free w = true -> ew w > 0 -> e + qE + nA > 0 }.

Definition Num (s : sys) : Prop :=
  num (wd s) (us s) (es s) (ps s) (total cS (thrs s)) (total cU (thrs s)) (total cP (thrs s)) (total cX (thrs s))
      (total cW (thrs s)) (total cR (thrs s)) (total dU (thrs s)) (total dE (thrs s)) (total dP (thrs s)) (total cA (thrs s)).

Definition waits (o : op) : bool := match o with Lock | TimedLock | LockShared | TimedLockShared | LockUpgrade => true | _ => false end.
Definition thr_ok (x : thr) : Prop :=
  match t_pc x with
  | PIdle => t_own x <> MPend
  | PRead o | PCas o _ => t_own x = needs o
  | PSleep o _ => waits o = true /\ t_own x = MNone
  | PGive o _ => is_timed o = true /\ t_own x = MNone
  | PRel o l (KRet r) => (if failed r then is_timed o = true else needs o <> MNone) /\ t_own x = if failed r then MNone else gives o
  | PRel o l (KGive _) => is_timed o = true /\ t_own x = MNone
  | PUp => t_own x = MPend
  end.
Definition Thr_ok (s : sys) : Prop := forall t x, nth_error (thrs s) t = Some x -> thr_ok x.

Lemma word_eqb_eq : forall a b, word_eqb a b = true -> a = b.
Proof.
  intros [a1 a2 a3 a4 a5 a6] [b1 b2 b3 b4 b5 b6]. unfold word_eqb. cbn [sc sw ex up ew ewb]. rewrite !andb_true_iff, !Nat.eqb_eq, !eqb_true_iff.
  intros (((((-> & ->) & ->) & ->) & ->) & ->). reflexivity.
Qed.

(** The change of one thread changes the sums by that thread's share. *)
Lemma num_step : forall s t x y w u e p h,
  nth_error (thrs s) t = Some x ->
  (forall nS nU nP nX nW nR qU qE qP nA,
     num (wd s) (us s) (es s) (ps s) (cS x + nS) (cU x + nU) (cP x + nP) (cX x + nX) (cW x + nW) (cR x + nR) (dU x + qU) (dE x + qE) (dP x + qP) (cA x + nA) ->
     num w u e p (cS y + nS) (cU y + nU) (cP y + nP) (cX y + nX) (cW y + nW) (cR y + nR) (dU y + qU) (dE y + qE) (dP y + qP) (cA y + nA)) ->
  Num s -> Num (Sys w u e p (set_thr (thrs s) t y) h).
Proof.
  intros s t x y w u e p h Hx H HN. unfold Num in *. cbn [wd us es ps thrs].
  assert (G : forall f, exists n, total f (thrs s) = f x + n /\ total f (set_thr (thrs s) t y) = f y + n).
  { intros f. pose proof (total_set f (thrs s) t y Hx). pose proof (total_ge f (thrs s) t Hx). exists (total f (thrs s) - f x). lia. }
  destruct (G cS) as (nS & E1 & ->), (G cU) as (nU & E2 & ->), (G cP) as (nP & E3 & ->), (G cX) as (nX & E4 & ->),
    (G cW) as (nW & E5 & ->), (G cR) as (nR & E6 & ->), (G dU) as (qU & E7 & ->), (G dE) as (qE & E8 & ->), (G dP) as (qP & E9 & ->), (G cA) as (nA & E10 & ->).
  apply H. now rewrite E1, E2, E3, E4, E5, E6, E7, E8, E9, E10 in HN.
Qed.

Lemma sm_pos : shared_max > 0. Proof. unfold shared_max. lia. Qed.
Lemma em_pos : exclusive_max > 0. Proof. unfold exclusive_max. lia. Qed.

Ltac unf := unfold cS, cU, cP, cX, cW, cR, dU, dE, dP, cA, rels, free, unblock, no_shared_waiting, release_waiters, release_shared_waiters,
  inc, dec, pos in *; cbn [t_pc t_own mode_eqb b2n of_sem isU isE isP is_writer is_timed needs gives sc sw ex up ew ewb negb andb orb app] in *.
Ltac bools :=
  repeat match goal with
  | H : context [?a =? ?b] |- _ => destruct (Nat.eqb_spec a b); cbn [negb andb orb b2n app of_sem isU isE isP sc sw ex up ew ewb] in *
  | |- context [?a =? ?b] => destruct (Nat.eqb_spec a b); cbn [negb andb orb b2n app of_sem isU isE isP sc sw ex up ew ewb] in *
  end.
Ltac nums := constructor; cbn [sc sw ex up ew ewb negb andb orb] in *; try discriminate; intuition (try discriminate; try lia; auto).

(** A successful exchange. *)
Lemma num_cas : forall o old new a m p' m' u e p nS nU nP nX nW nR qU qE qP nA,
  body_of o old = BCas new a -> m = needs o ->
  (a = AReturn (RBool false) /\ p' = PIdle /\ m' = m \/
   (exists r, a = AReturn r /\ r <> RBool false) /\ p' = PIdle /\ m' = gives o \/
   a = AWait /\ p' = PSleep o old /\ m' = m \/
   (exists l, a = ARelease l /\ p' = PRel o l (KRet RDone)) /\ m' = gives o \/
   a = AUpWait /\ p' = PUp /\ m' = MPend) ->
  let x := Thr (PCas o old) m in let y := Thr p' m' in
  num old u e p (cS x + nS) (cU x + nU) (cP x + nP) (cX x + nX) (cW x + nW) (cR x + nR) (dU x + qU) (dE x + qE) (dP x + qP) (cA x + nA) ->
  num new u e p (cS y + nS) (cU y + nU) (cP y + nP) (cX y + nX) (cW y + nW) (cR y + nR) (dU y + qU) (dE y + qE) (dP y + qP) (cA y + nA).
Proof.
  intros o old new a m p' m' u e p nS nU nP nX nW nR qU qE qP nA Hb -> Ha x y HN.
  pose proof sm_pos as SM. pose proof em_pos as EM.
  subst x y. destruct old as [c w x g v b]. destruct HN as [K1 K2 K3 K4 K5 K6 K7 K8 K9 K10].
  destruct o; cbn [body_of] in Hb.
  all: destruct x, g, b; unf; try contradiction; bools; try discriminate; try (injection Hb as <- <-);
    try (injection Hb as <-); repeat match goal with H : _ \/ _ |- _ => destruct H | H : _ /\ _ |- _ => destruct H | H : exists _, _ |- _ => destruct H end;
    subst; try congruence.
  all: repeat match goal with H : ARelease _ = ARelease _ |- _ => injection H as <- | H : true = true -> _ |- _ => specialize (H eq_refl) | H : false = true -> _ |- _ => clear H | H : _ /\ _ |- _ => destruct H end; try discriminate.
  all: cbn [mode_eqb b2n of_sem isU isE isP app is_writer negb gives rels] in *.
  all: try (exfalso; lia).
  all: try (constructor; unfold free, pos; cbn [sc sw ex up ew ewb negb andb orb]; bools; intros; try discriminate; try lia; repeat split; lia).
Qed.

(** A time-out: one turn of the loop, with a successful exchange. *)
Lemma num_give : forall o old new must r m p' m' u e p nS nU nP nX nW nR qU qE qP nA,
  give_body o old = GCas new must r -> is_timed o = true -> m = MNone ->
  (must = true /\ p' = PRel o [(SU, 1)] (KRet (RBool r)) /\ m' = m \/
   must = false /\ p' = PIdle /\ m' = if r then gives o else m) ->
  let x := Thr (PGive o old) m in let y := Thr p' m' in
  num old u e p (cS x + nS) (cU x + nU) (cP x + nP) (cX x + nX) (cW x + nW) (cR x + nR) (dU x + qU) (dE x + qE) (dP x + qP) (cA x + nA) ->
  num new u e p (cS y + nS) (cU y + nU) (cP y + nP) (cX y + nX) (cW y + nW) (cR y + nR) (dU y + qU) (dE y + qE) (dP y + qP) (cA y + nA).
Proof.
  intros o old new must r m p' m' u e p nS nU nP nX nW nR qU qE qP nA Hb Ho -> Ha x y HN.
  pose proof sm_pos as SM. pose proof em_pos as EM.
  subst x y. destruct old as [c w x g v b]. destruct HN as [K1 K2 K3 K4 K5 K6 K7 K8 K9 K10].
  destruct o; try discriminate Ho; cbn [give_body] in Hb.
  all: destruct x, g, b; unf; try contradiction; bools; try discriminate; try (injection Hb as <- <- <-);
    repeat match goal with H : _ \/ _ |- _ => destruct H | H : _ /\ _ |- _ => destruct H | H : exists _, _ |- _ => destruct H end;
    subst; try congruence.
  all: repeat match goal with H : true = true -> _ |- _ => specialize (H eq_refl) | H : false = true -> _ |- _ => clear H | H : _ /\ _ |- _ => destruct H end; try discriminate.
  all: cbn [mode_eqb b2n of_sem isU isE isP app is_writer negb gives rels] in *.
  all: try (exfalso; lia).
  all: try (constructor; unfold free, pos; cbn [sc sw ex up ew ewb negb andb orb]; bools; intros; try discriminate; try lia; repeat split; lia).
Qed.

