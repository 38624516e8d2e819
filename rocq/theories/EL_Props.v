(** * The properties of externally_locked and externally_locked_stream *)
From Verif Require Import EL_Model EL_Spec EL_Inv.
Set Implicit Arguments.

(** ** C133: a cloaked object is accessed only under its mutex, by one thread at a time *)

(** [chk]: BOOST_THREAD_THROW_IF_PRECONDITION_NOT_SATISFIED is defined; [care]: the program only passes guards of the right mutex *)
Definition cloak_stmt (chk care : bool) : Prop :=
  forall objs nm s, reach objs chk care nm s ->
    (* get hands out the object only to a guard that locks the associated mutex, and otherwise throws *)
    (forall h2 t g o h1, hist s = h2 ++ EBegin t g o :: h1 -> exists b sh, nth_error objs o = Some b /\ origin g h1 = Some (t, om b, sh)) /\
    (* two threads do not use the same object at the same time *)
    (coherent objs -> forall t1 g1 o1 t2 g2 o2 b1 b2, uses t1 g1 o1 (hist s) > 0 -> uses t2 g2 o2 (hist s) > 0 ->
       nth_error objs o1 = Some b1 -> nth_error objs o2 = Some b2 -> ox b1 = ox b2 -> t1 = t2).

(** In the default configuration nothing is checked: a guard of another mutex gets the object *)
Definition one_obj : list obj := [MkO 0 7].
Definition wrong_labels : list label := [LHold 0 0 false; LHold 1 1 false; LGet 0 0; LGet 1 0].
Theorem cloak_default_refuted : ~ cloak_stmt false false.
Proof.
  intros H.
  assert (R : exists s, runl one_obj false false (sys0 2) wrong_labels = Some s /\ hist s = [EBegin 1 1 0; EBegin 0 0 0; EHeld 1 1 1 false; EHeld 0 0 0 false]) by (eexists; split; vm_compute; reflexivity).
  destruct R as (s & R & E). destruct (H one_obj 2 s) as (A & _); [exists wrong_labels; exact R|].
  destruct (A [] 1 1 0 [EBegin 0 0 0; EHeld 1 1 1 false; EHeld 0 0 0 false] E) as (b & sh & B & O). injection B as <-. discriminate.
Qed.
Print Assumptions cloak_default_refuted.

(** With the check, and with care: a nested_strict_lock of a shared_lock is accepted, and get returns a T& *)
Definition shared_labels : list label := [LHold 0 0 true; LHold 1 0 true; LGet 0 0; LGet 1 0].
Theorem cloak_shared_refuted : ~ cloak_stmt true true.
Proof.
  intros H.
  assert (R : exists s, runl one_obj true true (sys0 1) shared_labels = Some s /\ hist s = [EBegin 1 1 0; EBegin 0 0 0; EHeld 1 1 0 true; EHeld 0 0 0 true]) by (eexists; split; vm_compute; reflexivity).
  destruct R as (s & R & E). destruct (H one_obj 1 s) as (_ & B); [exists shared_labels; exact R|].
  assert (C : coherent one_obj) by (intros a b [<-|[]] [<-|[]] _; reflexivity).
  specialize (B C 0 0 0 1 1 0 (MkO 0 7) (MkO 0 7)). rewrite E in B. cbn in B. assert (0 = 1) by (apply B; auto). discriminate.
Qed.
Print Assumptions cloak_shared_refuted.

(** Full statement: [cloak_stmt chk care] for all [chk], [care].  Proved: when the check is compiled in or the program takes care, get hands out the object only to guards of the
    right mutex, lock_error is thrown only for others, and two threads use the same object at the same time only if both guards nest shared locks.
    Missing: the default configuration without care, and shared locks (both refuted above). *)
Theorem cloak_partial :
  forall objs chk care nm s, reach objs chk care nm s -> chk || care = true ->
    ub s = false /\
    (forall h2 t g o h1, hist s = h2 ++ EBegin t g o :: h1 -> exists b sh, nth_error objs o = Some b /\ origin g h1 = Some (t, om b, sh)) /\
    (forall h2 t g o h1, hist s = h2 ++ EThrow t g o :: h1 -> exists b m sh, nth_error objs o = Some b /\ origin g h1 = Some (t, m, sh) /\ m <> om b) /\
    (coherent objs -> forall t1 g1 o1 t2 g2 o2 b1 b2, uses t1 g1 o1 (hist s) > 0 -> uses t2 g2 o2 (hist s) > 0 ->
       nth_error objs o1 = Some b1 -> nth_error objs o2 = Some b2 -> ox b1 = ox b2 ->
       t1 = t2 \/ exists m, origin g1 (hist s) = Some (t1, m, true) /\ origin g2 (hist s) = Some (t2, m, true)).
Proof.
  intros objs chk care nm s R K. pose proof (inv_reach R) as I. pose proof (i_good I) as G. split; [exact (i_ub I)|]. split; [|split].
  - intros h2 t g o h1 E. rewrite E in G. apply goods_mid in G. cbn in G. destruct G as (b & m & sh & G1 & G2 & G3 & _). exists b, sh. rewrite <- (G3 K). auto.
  - intros h2 t g o h1 E. rewrite E in G. apply goods_mid in G. cbn in G. destruct G as (_ & b & m & sh & G1). exists b, m, sh. exact G1.
  - intros C t1 g1 o1 t2 g2 o2 b1 b2 U1 U2 B1 B2 X.
    destruct (@use_guard objs chk care s t1 g1 o1 I U1) as (x1 & m1 & c1 & X1 & T1 & L1 & M1 & C1 & D1 & O1). destruct (@use_guard objs chk care s t2 g2 o2 I U2) as (x2 & m2 & c2 & X2 & T2 & L2 & M2 & C2 & D2 & O2).
    specialize (D1 K). specialize (D2 K). rewrite B1 in C1. rewrite B2 in C2. injection C1 as <-. injection C2 as <-.
    assert (H12 : m2 = m1) by (rewrite D1, D2; apply C; [eapply nth_error_In; exact B2|eapply nth_error_In; exact B1|symmetry; exact X]). clear D1 D2. subst m2.
    destruct (gs x1) eqn:S1; [destruct (gs x2) eqn:S2|].
    + right. exists m1. auto.
    + left. assert (Y : onm m1 false x2 = true) by (apply onm_spec; auto). destruct (@m_ex objs chk care s m1 g2 x2 x1 g1 I X2 Y X1 L1 M1) as (Z & _). congruence.
    + left. assert (Y : onm m1 false x1 = true) by (apply onm_spec; auto). destruct (@m_ex objs chk care s m1 g1 x1 x2 g2 I X1 Y X2 L2 M2) as (Z & _). congruence.
Qed.
Print Assumptions cloak_partial.
Example cloak_checked : exists s, runl [MkO 0 7; MkO 0 7; MkO 1 8] true false (sys0 2) [LHold 0 0 false; LGet 0 0; LHold 1 1 false; LGet 1 1; LGet 1 2; LEnd 0 0; LDrop 0; LHold 1 0 false; LGet 2 1] = Some s /\
  uses 1 2 1 (hist s) = 1 /\ uses 0 0 0 (hist s) = 0 /\ In (EThrow 1 1 1) (hist s).
Proof. eexists. split; [vm_compute; reflexivity|]. cbn. auto 10. Qed.

(** ** C134: what one thread outputs through one guard of an externally_locked_stream is not interrupted by others *)
Theorem stream_contiguous :
  forall objs chk care nm s, reach objs chk care nm s -> chk || care = true ->
  (* guard g on the mutex of a stream, constructed by thread t (by hold(), or at the beginning of s << a << b); later thread u outputs something to a stream with that mutex *)
  forall h3 u g' o h2 g t m h1 b, hist s = h3 ++ EBegin u g' o :: h2 ++ EHeld g t m false :: h1 -> nth_error objs o = Some b -> om b = m ->
    (* then u is t, or the guard, or what it has been moved to, has been destroyed in between *)
    u = t \/ destroyed g h2.
Proof.
  intros objs chk care nm s R K h3 u g' o h2 g t m h1 b E B M. pose proof (inv_reach R) as I. pose proof (i_good I) as G. rewrite E in G. apply goods_mid in G.
  cbn in G. destruct G as (b' & m' & sh & G1 & G2 & G3 & G4). rewrite B in G1. injection G1 as <-. specialize (G3 K). subst m'. rewrite M in G4.
  destruct (G4 h2 h1 g t eq_refl) as [D|D]; [right; exact D|left; symmetry; exact D].
Qed.
Print Assumptions stream_contiguous.
(** s << 1 << 2 by thread 0 (the guard is moved out of the first operator), then s << 3 by thread 1; recursive use by thread 0 in between *)
Example stream_run : exists s, runl one_obj false true (sys0 1)
    [LHold 0 0 false; LGet 0 0; LEnd 0 0; LMove 0; LDrop 0; LHold 0 0 false; LGet 2 0; LEnd 2 0; LDrop 2; LGet 1 0; LEnd 1 0; LDrop 1; LHold 1 0 false; LGet 3 0] = Some s /\
  hist s = [EBegin 1 3 0; EHeld 3 1 0 false; EDropped 1; EEnd 0 1 0; EBegin 0 1 0; EDropped 2; EEnd 0 2 0; EBegin 0 2 0; EHeld 2 0 0 false; EDropped 0; EMoved 0 1; EEnd 0 0 0; EBegin 0 0 0; EHeld 0 0 0 false].
Proof. eexists. split; vm_compute; reflexivity. Qed.
Example stream_blocked : runl one_obj false true (sys0 1) [LHold 0 0 false; LGet 0 0; LEnd 0 0; LMove 0; LDrop 0; LHold 1 0 false] = None.
Proof. vm_compute. reflexivity. Qed.
