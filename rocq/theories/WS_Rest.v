(** * The Windows shared_mutex: exclusion, and what holds when everything has come to rest *)
From Verif Require Export WS_Proofs.
Set Implicit Arguments.

Lemma exec_len : forall s l s', exec s l = Some s' -> length (thrs s') = length (thrs s).
Proof.
  intros s l s' H. destruct l as [t o|t|t]; cbn in H; destruct (nth_error (thrs s) t) as [x|]; try discriminate.
  - unfold call, put in H. destruct (t_pc x); try discriminate. destruct (mode_eqb _ _); try discriminate. injection H as <-. apply length_set.
  - unfold run, ret, goto, put in H. destruct (t_pc x); repeat match type of H with context [match ?b with _ => _ end] => destruct b end; try discriminate; injection H as <-; apply length_set.
  - unfold time_out, goto, put in H. destruct (t_pc x); try discriminate. destruct (is_timed o); try discriminate. injection H as <-. apply length_set.
Qed.
Lemma reach_len : forall n s, reach n s -> length (thrs s) = n.
Proof. intros n s H. induction H; [apply repeat_length|]. apply exec_len in H0. congruence. Qed.

(** The event of a step, if any, is the stepping thread's. *)
Definition ev_of (e : event) : nat := match e with ECall t _ | ERet t _ _ => t end.
Lemma exec_hist : forall s l s', exec s l = Some s' -> exists t, t < length (thrs s) /\ (hist s' = hist s \/ exists e, hist s' = e :: hist s /\ ev_of e = t).
Proof.
  intros s l s' H. destruct l as [t o|t|t]; cbn in H; destruct (nth_error (thrs s) t) as [x|] eqn:Hx; try discriminate; exists t; (split; [apply nth_error_Some; congruence|]).
  - unfold call, put in H. destruct (t_pc x); try discriminate. destruct (mode_eqb _ _); try discriminate. injection H as <-. right. eexists. split; reflexivity.
  - unfold run, ret, goto, put in H. destruct (t_pc x); repeat match type of H with context [match ?b with _ => _ end] => destruct b end; try discriminate; injection H as <-; cbn;
      first [now left|right; eexists; split; reflexivity].
  - unfold time_out, goto, put in H. destruct (t_pc x); try discriminate. destruct (is_timed o); try discriminate. injection H as <-. now left.
Qed.
Lemma hist_range : forall n s, reach n s -> forall e, In e (hist s) -> ev_of e < n.
Proof.
  intros n s Hr. induction Hr as [|s l s' Hr IH H]; [intros e []|]. intros e He. destruct (exec_hist _ _ H) as (t & Ht & [E|(e' & E & Et)]); rewrite E in He.
  - eauto.
  - destruct He as [ <- |He]; [|eauto]. rewrite (reach_len Hr) in Ht. congruence.
Qed.
Lemma outside : forall t h, (forall e, In e h -> ev_of e <> t) -> holds t h = HNone /\ calling t h = None.
Proof.
  intros t. induction h as [|e h IH]; intros H; [split; reflexivity|]. pose proof (H e (or_introl eq_refl)) as He.
  destruct IH as [A B]; [intros e' Q; apply H; now right|]. destruct e as [u o|u o r]; cbn in *; destruct (Nat.eqb_spec u t); try congruence; auto.
Qed.
Lemma in_range : forall n s t, reach n s -> holds t (hist s) <> HNone \/ calling t (hist s) <> None -> exists x, nth_error (thrs s) t = Some x.
Proof.
  intros n s t Hr H. destruct (nth_error (thrs s) t) as [x|] eqn:E; [eauto|]. exfalso. apply nth_error_None in E. rewrite (reach_len Hr) in E.
  destruct (@outside t (hist s)) as [A B]; [intros e He Q|intuition congruence].
  - pose proof (hist_range Hr e He). rewrite Q in *. lia.
Qed.

(** ** Exclusion *)
Lemma owner_of : forall s t x, Inv s -> nth_error (thrs s) t = Some x -> holds t (hist s) <> HNone ->
  match holds t (hist s) with
  | HNone => True
  | HShared => t_own x = MShared \/ t_own x = MUpgrade \/ t_own x = MExcl
  | HUpgrade => t_own x = MUpgrade \/ t_own x = MPend \/ t_own x = MExcl
  | HExclusive => t_own x = MExcl
  end.
Proof.
  intros s t x HI Hx H. destruct (i_hist HI t Hx) as [A B]. pose proof (i_thr HI t Hx) as C. unfold thr_ok in C.
  rewrite B in *. destruct (t_pc x); cbn [call_of] in *.
  - destruct (t_own x); cbn in *; auto; congruence.
  - rewrite C. destruct o; cbn in *; auto; congruence.
  - rewrite C. destruct o; cbn in *; auto; congruence.
  - destruct C as [C ->]. destruct o; try discriminate C; cbn in *; auto; congruence.
  - destruct C as [C ->]. destruct o; try discriminate C; cbn in *; auto; congruence.
  - destruct k as [r|old].
    + destruct C as [C ->]. destruct (failed r); [destruct o; try discriminate C; cbn in *; congruence|]. destruct o; cbn in *; auto; congruence.
    + destruct C as [C ->]. destruct o; try discriminate C; cbn in *; congruence.
  - rewrite C. cbn. auto.
Qed.

Lemma exclusion : forall n s i j, reach n s -> i <> j -> compatible (holds i (hist s)) (holds j (hist s)) = true.
Proof.
  intros n s i j Hr Hne. pose proof (inv_reach Hr) as HI.
  destruct (holds i (hist s)) eqn:Ei; [reflexivity| | |]; (destruct (holds j (hist s)) eqn:Ej; [reflexivity| | |]); try reflexivity; exfalso.
  all: destruct (@in_range n s i Hr) as [x Hx]; [left; congruence|]; destruct (@in_range n s j Hr) as [y Hy]; [left; congruence|].
  all: pose proof (@owner_of s i x HI Hx) as Oi; pose proof (@owner_of s j y HI Hy) as Oj; rewrite Ei in Oi; rewrite Ej in Oj;
    specialize (Oi ltac:(discriminate)); specialize (Oj ltac:(discriminate)).
  all: pose proof (i_num HI) as [K1 K2 _ _ _ _ _ _ _ _].
  all: pose proof (@total_ge2 cS (thrs s) i x j y Hx Hy Hne); pose proof (@total_ge2 cU (thrs s) i x j y Hx Hy Hne);
    pose proof (@total_ge2 cP (thrs s) i x j y Hx Hy Hne); pose proof (@total_ge2 cX (thrs s) i x j y Hx Hy Hne).
  all: unfold cS, cU, cP, cX in *.
  all: repeat match goal with H : _ \/ _ |- _ => destruct H end.
  all: repeat match goal with H : t_own _ = _ |- _ => rewrite H in * end; cbn [mode_eqb b2n] in *.
  all: destruct (ex (wd s)), (up (wd s)); try contradiction; lia.
Qed.

(** ** At rest *)
Lemma runs : forall s t x, nth_error (thrs s) t = Some x -> exec s (LRun t) = None -> Inv s ->
  t_pc x = PIdle \/ (exists o old, t_pc x = PSleep o old /\ (us s = 0 \/ is_writer o = true /\ es s = 0)) \/ t_pc x = PUp /\ ps s = 0.
Proof.
  intros s t x Hx H HI. cbn in H. rewrite Hx in H. unfold run, ret, goto, put in H. destruct (t_pc x) as [|o|o old|o old|o old|o l k|].
  - now left.
  - discriminate.
  - destruct (body_of o old) as [|w [[|[]|]| | |]]; try discriminate; destruct (word_eqb (wd s) old); discriminate.
  - right. left. exists o, old. split; [reflexivity|]. destruct (is_writer o), (us s), (es s); try discriminate; auto.
  - destruct (give_body o old) as [|w [] r]; try discriminate; destruct (word_eqb (wd s) old); discriminate.
  - destruct l as [|[[] n] l]; try discriminate; destruct k; discriminate.
  - right. right. destruct (ps s); [auto|discriminate].
Qed.

Lemma rest_pending : forall s f, at_rest s -> Inv s -> (forall p m, match p with PIdle | PUp | PSleep _ _ => True | _ => False end -> f (Thr p m) = 0) -> total f (thrs s) = 0.
Proof.
  intros s f Hr HI Hf. apply total_zero. intros t x Hx. destruct (@runs s t x Hx (Hr t) HI) as [E|[(o & old & E & _)|[E _]]]; destruct x as [p m]; cbn in E; subst p; apply Hf; exact I.
Qed.

(** someone owns the mutex and is not in a call *)
Lemma idle_owner : forall s, at_rest s -> Inv s -> free (wd s) = false -> exists j, holds j (hist s) <> HNone /\ calling j (hist s) = None.
Proof.
  intros s Hr HI Hf. pose proof (i_num HI) as [K1 K2 _ _ _ _ _ _ _ _].
  assert (G : forall t x, nth_error (thrs s) t = Some x -> t_own x <> MNone -> t_own x <> MPend -> exists j, holds j (hist s) <> HNone /\ calling j (hist s) = None).
  { intros t x Hx Ho Hp. exists t. destruct (i_hist HI t Hx) as [A B]. pose proof (i_thr HI t Hx) as C. unfold thr_ok in C.
    destruct (@runs s t x Hx (Hr t) HI) as [E|[(o & old & E & _)|[E _]]]; rewrite E in *.
    - split; [|exact A]. rewrite B. cbn. destruct (t_own x); try congruence; discriminate.
    - destruct C. congruence.
    - congruence. }
  assert (G2 : forall f, total f (thrs s) > 0 -> (forall x, f x > 0 -> t_own x <> MNone /\ t_own x <> MPend) -> exists j, holds j (hist s) <> HNone /\ calling j (hist s) = None).
  { intros f Hp Q. destruct (total_pos _ _ Hp) as (t & x & Hx & Hq). destruct (Q x Hq). eauto. }
  destruct (total cS (thrs s) + total cU (thrs s)) eqn:E.
  - unfold free in Hf. rewrite K1 in Hf. cbn in Hf. destruct (ex (wd s)) eqn:Ex; [|discriminate]. destruct (up (wd s)); [contradiction|].
    destruct K2 as (_ & K2 & K3).
    assert (Z : total dP (thrs s) = 0). { apply rest_pending; auto. intros [] m; try contradiction; reflexivity. }
    destruct (total cP (thrs s)) eqn:EP.
    + apply G2 with (f := cX); [lia|]. intros x. unfold cX. destruct (t_own x); cbn; intros; split; try discriminate; lia.
    + exfalso. destruct (@total_pos cP (thrs s)) as (t & x & Hx & Hq); [lia|].
      assert (Eo : t_own x = MPend). { unfold cP in Hq. destruct (t_own x); cbn in Hq; try lia; reflexivity. }
      pose proof (i_thr HI t Hx) as C. unfold thr_ok in C. destruct (@runs s t x Hx (Hr t) HI) as [E1|[(o & old & E1 & _)|[E1 E2]]]; rewrite E1 in C; try congruence; [destruct C; congruence|].
      lia.
  - destruct (total cS (thrs s)) eqn:ES.
    + apply G2 with (f := cU); [lia|]. intros x. unfold cU. destruct (t_own x); cbn; intros; split; try discriminate; lia.
    + apply G2 with (f := cS); [lia|]. intros x. unfold cS. destruct (t_own x); cbn; intros; split; try discriminate; lia.
Qed.

Lemma no_lost_wakeup : forall n s t, reach n s -> at_rest s -> blocked s t ->
  exists j, j <> t /\ holds j (hist s) <> HNone /\ calling j (hist s) = None.
Proof.
  intros n s t Hr Ha [Hc _]. pose proof (inv_reach Hr) as HI.
  assert (G : exists j, holds j (hist s) <> HNone /\ calling j (hist s) = None).
  2: { destruct G as (j & H1 & H2). exists j. split; [intros ->; congruence|auto]. }
  destruct (@in_range n s t Hr) as [x Hx]; [now right|].
  destruct (free (wd s)) eqn:Hf; [exfalso|now apply idle_owner].
  pose proof (i_num HI) as [K1 K2 _ _ _ K6 K7 K8 K9 K10]. specialize (K9 Hf). destruct K9 as [K9 _]. specialize (K10 Hf).
  assert (Z1 : total dU (thrs s) = 0). { apply rest_pending; auto. intros [] m; try contradiction; reflexivity. }
  assert (Z2 : total dE (thrs s) = 0). { apply rest_pending; auto. intros [] m; try contradiction; reflexivity. }
  assert (Z3 : total cA (thrs s) = 0). { apply rest_pending; auto. intros [] m; try contradiction; reflexivity. }
  destruct (i_hist HI t Hx) as [A _]. destruct (@runs s t x Hx (Ha t) HI) as [E|[(o & old & E & Ez)|[E Ez]]].
  - rewrite E in A. cbn in A. congruence.
  - pose proof (total_ge cW (thrs s) t Hx) as G1. pose proof (total_ge cR (thrs s) t Hx) as G2. unfold cW in G1 at 1. unfold cR in G2 at 1. rewrite E in G1, G2.
    destruct (is_writer o); cbn [b2n negb] in *.
    + destruct Ez as [Ez|[_ Ez]]; rewrite Ez in *; destruct (ew (wd s)); lia.
    + destruct Ez as [Ez|[? _]]; [|discriminate]. rewrite Ez in *. lia.
  - pose proof (i_thr HI t Hx) as C. unfold thr_ok in C. rewrite E in C. pose proof (total_ge cP (thrs s) t Hx) as G1. unfold cP in G1 at 1. rewrite C in G1. cbn in G1.
    unfold free in Hf. apply andb_true_iff in Hf. destruct Hf as [F1 F2]. apply negb_true_iff in F1, F2. rewrite F2 in K2. unfold pos in F1. apply negb_false_iff, Nat.eqb_eq in F1.
    destruct (up (wd s)); lia.
Qed.
