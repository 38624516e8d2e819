(** * The Windows shared_mutex: when readers wait, when lock_error is thrown, when try_lock fails *)
From Verif Require Export WS_Plain.
Set Implicit Arguments.

(** ** Readers wait for writers only *)
Lemma readers_wait : forall n s t, reach n s -> never TimedLock (hist s) -> never LockUpgrade (hist s) ->
  at_rest s -> blocked s t -> (calling t (hist s) = Some LockShared \/ calling t (hist s) = Some TimedLockShared) ->
  exists j, j <> t /\ (holds j (hist s) = HExclusive \/ calling j (hist s) = Some Lock).
Proof.
  intros n s t Hr N1 N2 Ha [Hb _] Hc. pose proof (inv_reach Hr) as HI.
  set (ok := fun o => match o with TimedLock | LockUpgrade => false | _ => true end).
  assert (Hp : reachP ok n s).
  { apply reachP_of; [exact Hr|]. intros u o Hi. destruct o; try reflexivity; exfalso; [eapply N1|eapply N2]; exact Hi. }
  destruct (QS_reach Hp) as (Q1 & Q2 & _). specialize (Q1 eq_refl). specialize (Q2 eq_refl eq_refl).
  destruct (@in_range n s t Hr) as [x Hx]; [now right|]. destruct (i_hist HI t Hx) as [A _].
  pose proof (i_num HI) as [K1 K2 _ _ _ K6 K7 K8 K9 K10].
  assert (Z1 : total dU (thrs s) = 0). { apply rest_pending; auto. intros [] m; try contradiction; reflexivity. }
  assert (Z2 : total dE (thrs s) = 0). { apply rest_pending; auto. intros [] m; try contradiction; reflexivity. }
  assert (Z3 : total dP (thrs s) = 0). { apply rest_pending; auto. intros [] m; try contradiction; reflexivity. }
  assert (F : exists j, holds j (hist s) = HExclusive \/ calling j (hist s) = Some Lock).
  2: { destruct F as [j F]. exists j. split; [intros ->|exact F]. destruct F as [F|F]; [|destruct Hc; congruence].
       destruct (i_hist HI t Hx) as [_ B]. rewrite <- A in B. destruct Hc as [E|E]; rewrite E in B; cbn in B; congruence. }
  destruct (@runs s t x Hx (Ha t) HI) as [E|[(o & old & E & Ez)|[E Ez]]]; rewrite E in A; cbn in A.
  - congruence.
  - assert (Hw : is_writer o = false) by (destruct Hc; destruct o; try reflexivity; congruence).
    destruct Ez as [Ez|[? _]]; [|congruence]. pose proof (total_ge cR (thrs s) t Hx) as G2. unfold cR in G2 at 1. rewrite E, Hw in G2. cbn in G2.
    assert (S1 : sw (wd s) > 0) by lia. destruct (Q2 S1) as [Ex|Ewb].
    + rewrite Ex in K2. destruct (up (wd s)); [contradiction|]. destruct K2 as (_ & K2 & K3).
      destruct (total cP (thrs s)) eqn:EP.
      * destruct (@total_pos cX (thrs s)) as (j & y & Hy & Hq); [lia|]. exists j. left. destruct (i_hist HI j Hy) as [A' B'].
        assert (Eo : t_own y = MExcl). { unfold cX in Hq. destruct (t_own y); cbn in Hq; try lia; reflexivity. }
        pose proof (i_thr HI j Hy) as C. unfold thr_ok in C. destruct (@runs s j y Hy (Ha j) HI) as [E1|[(o' & old' & E1 & _)|[E1 E2]]]; rewrite E1 in *; try congruence.
        -- rewrite B', Eo. reflexivity.
        -- destruct C; congruence.
      * exfalso. destruct (@total_pos cP (thrs s)) as (j & y & Hy & Hq); [lia|].
        assert (Eo : t_own y = MPend). { unfold cP in Hq. destruct (t_own y); cbn in Hq; try lia; reflexivity. }
        pose proof (i_thr HI j Hy) as C. unfold thr_ok in C. destruct (@runs s j y Hy (Ha j) HI) as [E1|[(o' & old' & E1 & _)|[E1 E2]]]; rewrite E1 in C; try congruence; [destruct C; congruence|]. lia.
    + specialize (K8 Ewb). destruct (@total_pos cW (thrs s)) as (j & y & Hy & Hq); [lia|]. exists j. right. destruct (i_hist HI j Hy) as [A' _].
      unfold cW in Hq. destruct (@runs s j y Hy (Ha j) HI) as [E1|[(o' & old' & E1 & _)|[E1 E2]]]; rewrite E1 in *; cbn in Hq; try lia.
      cbn in A'. rewrite A'. destruct o'; cbn in Hq; try lia; [reflexivity|]. exfalso. eapply N1. apply calling_in. exact A'.
  - destruct Hc; congruence.
Qed.

(** ** The word a thread goes by is the word of some moment of its call *)
Lemma within_reach : forall n t s0 s, within t s0 s -> reach n s0 -> reach n s.
Proof. intros n t s0 s H Hr. induction H as [|s s1 l s' H IH E Hl]; [exact Hr|]. exact (r_step l (IH Hr) E). Qed.
Lemma within_hist : forall t s0 s, within t s0 s -> exists h, hist s = h ++ hist s0.
Proof.
  intros t s0 s H. induction H as [|s s1 l s' H IH E]; [exists []; reflexivity|]. destruct IH as [h IH]. destruct (exec_hist _ _ E) as (u & _ & [->|(e & -> & _)]); rewrite IH; [now exists h|now exists (e :: h)].
Qed.
Lemma never_within : forall t s0 s o, within t s0 s -> never o (hist s) -> never o (hist s0).
Proof. intros t s0 s o H N u Hi. destruct (within_hist H) as [h E]. apply (N u). rewrite E. apply in_or_app. now right. Qed.

Definition going (s : sys) (t : nat) (o : op) : Prop := exists x, nth_error (thrs s) t = Some x /\ (t_pc x = PRead o \/ exists w, t_pc x = PCas o w).

Definition seen (n : nat) (s : sys) (t : nat) (o : op) (old : word) : Prop :=
  exists s0, reach n s0 /\ within t s0 s /\ wd s0 = old /\ going s0 t o.

Lemma seen_step : forall n s l s' t o old, seen n s t o old -> exec s l = Some s' -> (forall o', l <> LCall t o') -> seen n s' t o old.
Proof. intros n s l s' t o old (s0 & H1 & H2 & H3 & H4) E Hl. exists s0. repeat split; auto. econstructor; eauto. Qed.

Lemma exec_thr : forall s l s' t x, exec s l = Some s' -> nth_error (thrs s) t = Some x -> match l with LCall u _ | LRun u | LTimeout u => u <> t end -> nth_error (thrs s') t = Some x.
Proof.
  intros s l s' t x H Hx Hl. destruct l as [u o|u|u]; cbn in H; destruct (nth_error (thrs s) u) as [y|]; try discriminate.
  - unfold call, put in H. destruct (t_pc y); try discriminate. destruct (mode_eqb _ _); try discriminate. injection H as <-. cbn [thrs]. now rewrite nth_set_other.
  - unfold run, ret, goto, put in H. destruct (t_pc y); repeat match type of H with context [match ?b with _ => _ end] => destruct b end; try discriminate; injection H as <-; cbn [thrs]; now rewrite nth_set_other.
  - unfold time_out, goto, put in H. destruct (t_pc y); try discriminate. destruct (is_timed o); try discriminate. injection H as <-. cbn [thrs]. now rewrite nth_set_other.
Qed.

Lemma seen_reach : forall n s, reach n s -> forall t x o old, nth_error (thrs s) t = Some x -> t_pc x = PCas o old -> seen n s t o old.
Proof.
  intros n s Hr. induction Hr as [|s l s' Hr IH H]; intros t x' o old Hx' Ep.
  { cbn in Hx'. apply nth_error_In, repeat_spec in Hx'. subst x'. discriminate. }
  destruct (nth_error (thrs s) t) as [x|] eqn:Hx.
  2: { apply nth_error_None in Hx. rewrite <- (exec_len _ _ H) in Hx. apply nth_error_None in Hx. congruence. }
  assert (D : match l with LCall u _ | LRun u | LTimeout u => u <> t end \/ (exists o', l = LCall t o') \/ l = LRun t \/ l = LTimeout t).
  { destruct l as [u o'|u|u]; destruct (Nat.eq_dec u t) as [->|Hne]; eauto. }
  destruct D as [D|[[o' ->]|[ -> | -> ]]].
  - assert (x' = x) by (rewrite (exec_thr _ _ _ H Hx D) in Hx'; congruence). subst x'. eapply seen_step; [eapply IH; eauto|exact H|]. intros o' ->. now apply D.
  - cbn in H. rewrite Hx in H. unfold call, put in H. destruct (t_pc x); try discriminate. destruct (mode_eqb _ _); try discriminate. injection H as <-. cbn [thrs] in Hx'. rewrite (nth_set_same _ _ _ Hx) in Hx'. injection Hx' as <-. discriminate.
  - assert (H' := H). cbn in H. rewrite Hx in H. unfold run, ret, goto, put in H.
    assert (W : within t s s') by (econstructor; [constructor|exact H'|discriminate]).
    destruct (t_pc x) as [|o1|o1 w1|o1 w1|o1 w1|o1 l1 k1|] eqn:Epc.
    1: discriminate.
    1: { injection H as <-. cbn [thrs] in Hx'. rewrite (nth_set_same _ _ _ Hx) in Hx'. injection Hx' as <-. cbn in Ep. injection Ep as <- <-. exists s. repeat split; auto. exists x. auto. }
    1: { destruct (body_of o1 w1) as [r|new a] eqn:Eb; [|destruct (word_eqb (wd s) w1); [destruct a as [[|[]|]| |l1|]|]].
         all: injection H as <-; cbn [thrs] in Hx'; rewrite (nth_set_same _ _ _ Hx) in Hx'; injection Hx' as <-; cbn in Ep; try discriminate.
         injection Ep as <- <-. exists s. repeat split; auto. exists x. eauto. }
    all: repeat match type of H with context [match ?b with _ => _ end] => destruct b end; try discriminate; injection H as <-; cbn [thrs] in Hx'; rewrite (nth_set_same _ _ _ Hx) in Hx'; injection Hx' as <-; cbn in Ep; discriminate.
  - cbn in H. rewrite Hx in H. unfold time_out, goto, put in H. destruct (t_pc x); try discriminate. destruct (is_timed _); try discriminate. injection H as <-. cbn [thrs] in Hx'. rewrite (nth_set_same _ _ _ Hx) in Hx'. injection Hx' as <-. discriminate.
Qed.

(** A thread that returns having failed without an exchange. *)
Lemma return_event : forall s l s' t o r, exec s l = Some s' -> hist s' = ERet t o r :: hist s -> l = LRun t /\ exists x, nth_error (thrs s) t = Some x.
Proof.
  intros s l s' t o r H E. destruct l as [u o'|u|u]; cbn in H; destruct (nth_error (thrs s) u) as [x|] eqn:Hx; try discriminate.
  - unfold call, put in H. destruct (t_pc x); try discriminate. destruct (mode_eqb _ _); try discriminate. injection H as <-. cbn in E. discriminate.
  - assert (u = t); [|subst; eauto]. unfold run, ret, goto, put in H. destruct (t_pc x); repeat match type of H with context [match ?b with _ => _ end] => destruct b end; try discriminate; injection H as <-; cbn in E; try congruence; exfalso; symmetry in E;
      clear - E; set (h := hist s) in *; assert (Q : length h = S (length h)) by (rewrite <- E at 1; reflexivity); lia.
  - unfold time_out, goto, put in H. destruct (t_pc x); try discriminate. destruct (is_timed _); try discriminate. injection H as <-. cbn in E. exfalso. symmetry in E.
    set (h := hist s) in *; assert (Q : length h = S (length h)) by (rewrite <- E at 1; reflexivity); lia.
Qed.

(** ** Counting threads *)
Lemma total_app : forall f l l', total f (l ++ l') = total f l + total f l'.
Proof. intros f. induction l as [|x l IH]; intros l'; cbn; [reflexivity|rewrite IH; lia]. Qed.
Lemma total_le : forall f g l, (forall t x, nth_error l t = Some x -> f x <= b2n (g t)) -> total f l <= how_many (length l) g.
Proof.
  intros f g. induction l as [|x l IH] using rev_ind; intros H; [cbn; lia|]. rewrite total_app, app_length. cbn. rewrite Nat.add_1_r. cbn.
  assert (f x <= b2n (g (length l))). { apply H. rewrite nth_error_app2 by lia. now rewrite Nat.sub_diag. }
  specialize (IH (fun t y Hy => H t y ltac:(rewrite nth_error_app1; [exact Hy|apply nth_error_Some; congruence]))). unfold b2n in H0. lia.
Qed.
Lemma total_lt : forall f g l t0 x0, (forall t x, nth_error l t = Some x -> f x <= b2n (g t)) -> nth_error l t0 = Some x0 -> f x0 = 0 -> g t0 = true ->
  total f l < how_many (length l) g.
Proof.
  intros f g. induction l as [|x l IH] using rev_ind; intros t0 x0 H H0 Hf Hg; [destruct t0; discriminate|]. rewrite total_app, app_length. cbn. rewrite Nat.add_1_r. cbn.
  assert (Hx : f x <= b2n (g (length l))). { apply H. rewrite nth_error_app2 by lia. now rewrite Nat.sub_diag. }
  assert (Hl : forall t y, nth_error l t = Some y -> f y <= b2n (g t)). { intros t y Hy. apply H. rewrite nth_error_app1; [exact Hy|apply nth_error_Some; congruence]. }
  destruct (Nat.lt_ge_cases t0 (length l)) as [Hlt|Hge].
  - rewrite nth_error_app1 in H0 by exact Hlt. specialize (IH t0 x0 Hl H0 Hf Hg). unfold b2n in Hx. lia.
  - assert (t0 < length (l ++ [x])) by (apply nth_error_Some; congruence). rewrite app_length in H1. cbn in H1. assert (t0 = length l) by lia. subst t0.
    rewrite nth_error_app2, Nat.sub_diag in H0 by lia. cbn in H0. injection H0 as ->. rewrite Hf, Hg. pose proof (@total_le f g l Hl). lia.
Qed.

(** ** lock_error from lock() *)
Lemma lock_error_lock : forall n s l s' t, reach n s -> never TimedLock (hist s) -> exec s l = Some s' -> hist s' = ERet t Lock RThrow :: hist s ->
  exists s0, reach n s0 /\ within t s0 s /\ calling t (hist s0) = Some Lock /\ exclusive_max < how_many n (locking (hist s0)).
Proof.
  intros n s l s' t Hr N H E. destruct (return_event _ _ H E) as (-> & x & Hx). pose proof (inv_reach Hr) as HI.
  assert (S : exists old, t_pc x = PCas Lock old /\ body_of Lock old = BReturn RThrow).
  { cbn in H. rewrite Hx in H. unfold run, ret, goto, put in H. pose proof (i_thr HI t Hx) as C. unfold thr_ok in C. destruct (i_hist HI t Hx) as [Hcl _].
    destruct (t_pc x) as [|o|o old|o old|o old|o rl k|]; try discriminate;
      repeat match type of H with context [match ?b with _ => _ end] => destruct b eqn:? end; try discriminate; injection H as <-; cbn in E;
      try (exfalso; symmetry in E; set (h := hist s) in *; assert (Q : length h = S (length h)) by (rewrite <- E at 1; reflexivity); lia); try (injection E; intros; subst; try discriminate).
    - eauto.
    - destruct (body_ret _ _ Heqb) as [_ Q]. now specialize (Q ltac:(discriminate)).
    - destruct C; discriminate.
    - destruct C as [C _]. discriminate C. }
  destruct S as (old & Ep & Eb). destruct (seen_reach Hr t Hx Ep) as (s0 & R0 & W0 & <- & (y & Hy & Ey)).
  exists s0. split; [exact R0|]. split; [exact W0|]. pose proof (inv_reach R0) as HI0. destruct (i_hist HI0 t Hy) as [A B].
  assert (Hcl : calling t (hist s0) = Some Lock) by (rewrite A; destruct Ey as [->|[w ->]]; reflexivity). split; [exact Hcl|].
  set (ok := fun o => match o with TimedLock => false | _ => true end).
  assert (N0 := never_within W0 N).
  assert (Hp : reachP ok n s0). { apply reachP_of; [exact R0|]. intros u o Hi. destruct o; try reflexivity; exfalso; eapply N0; exact Hi. }
  destruct (QS_reach Hp) as (Q1 & _ & _). specialize (Q1 eq_refl).
  assert (Em : ew (wd s0) = exclusive_max).
  { cbn [body_of] in Eb. destruct (pos (sc (wd s0)) || ex (wd s0)); [|discriminate]. destruct (inc exclusive_max (ew (wd s0)) =? 0) eqn:Ei; [|discriminate].
    apply Nat.eqb_eq in Ei. unfold inc in Ei. destruct (Nat.eqb_spec (ew (wd s0)) exclusive_max); [assumption|discriminate]. }
  rewrite <- (reach_len R0). enough (total cW (thrs s0) < how_many (length (thrs s0)) (locking (hist s0))) by lia.
  refine (@total_lt cW (locking (hist s0)) (thrs s0) t y _ Hy _ _).
  - intros u z Hz. destruct (i_hist HI0 u Hz) as [Au _]. unfold locking. rewrite Au. unfold cW. destruct (t_pc z) as [| | |o w|o w|o rl [|]|]; cbn; try lia; destruct o; cbn; lia.
  - unfold cW. destruct Ey as [->|[w ->]]; reflexivity.
  - unfold locking. now rewrite Hcl.
Qed.

(** ** lock_error from lock_shared() *)
Lemma owner_busy : forall s t x, Inv s -> nth_error (thrs s) t = Some x -> t_own x <> MNone -> busy (hist s) t = true.
Proof.
  intros s t x HI Hx Ho. destruct (i_hist HI t Hx) as [A B]. unfold busy. rewrite A, B. destruct (call_of (t_pc x)); [reflexivity|]. destruct (t_own x); cbn; congruence.
Qed.
Lemma lock_error_shared : forall n s l s' t, reach n s -> never TimedLock (hist s) -> never TimedLockShared (hist s) -> never UnlockUpgrade (hist s) ->
  exec s l = Some s' -> hist s' = ERet t LockShared RThrow :: hist s ->
  exists s0, reach n s0 /\ within t s0 s /\ calling t (hist s0) = Some LockShared /\ shared_max < how_many n (busy (hist s0)).
Proof.
  intros n s l s' t Hr N N2 N3 H E. destruct (return_event _ _ H E) as (-> & x & Hx). pose proof (inv_reach Hr) as HI.
  assert (S : exists old, t_pc x = PCas LockShared old /\ body_of LockShared old = BReturn RThrow).
  { cbn in H. rewrite Hx in H. unfold run, ret, goto, put in H. pose proof (i_thr HI t Hx) as C. unfold thr_ok in C. destruct (i_hist HI t Hx) as [Hcl _].
    destruct (t_pc x) as [|o|o old|o old|o old|o rl k|]; try discriminate;
      repeat match type of H with context [match ?b with _ => _ end] => destruct b eqn:? end; try discriminate; injection H as <-; cbn in E;
      try (exfalso; symmetry in E; set (h := hist s) in *; assert (Q : length h = S (length h)) by (rewrite <- E at 1; reflexivity); lia); try (injection E; intros; subst; try discriminate).
    - eauto.
    - destruct (body_ret _ _ Heqb) as [_ Q]. now specialize (Q ltac:(discriminate)).
    - destruct C; discriminate.
    - destruct C as [C _]. discriminate C. }
  destruct S as (old & Ep & Eb). destruct (seen_reach Hr t Hx Ep) as (s0 & R0 & W0 & <- & (y & Hy & Ey)).
  exists s0. split; [exact R0|]. split; [exact W0|]. pose proof (inv_reach R0) as HI0. destruct (i_hist HI0 t Hy) as [A B].
  assert (Hcl : calling t (hist s0) = Some LockShared) by (rewrite A; destruct Ey as [->|[w ->]]; reflexivity). split; [exact Hcl|].
  set (ok := fun o => match o with TimedLock | TimedLockShared | UnlockUpgrade => false | _ => true end).
  assert (Hp : reachP ok n s0). { apply reachP_of; [exact R0|]. intros u o Hi. destruct o; try reflexivity; exfalso; [exact (never_within W0 N u Hi)|exact (never_within W0 N2 u Hi)|exact (never_within W0 N3 u Hi)]. }
  destruct (QS_reach Hp) as (Q1 & _ & Q3). specialize (Q1 eq_refl). specialize (Q3 eq_refl eq_refl eq_refl).
  pose proof (n_sc (i_num HI0)) as K1.
  pose proof (i_thr HI0 t Hy) as Ct. assert (Cown : t_own y = MNone). { unfold thr_ok in Ct. destruct Ey as [Ey|[w Ey]]; rewrite Ey in Ct; exact Ct. }
  rewrite <- (reach_len R0).
  assert (TA : forall f f' l, total (fun x => f x + f' x) l = total f l + total f' l). { intros f f'. induction l as [|z l IH]; cbn; [reflexivity|rewrite IH; lia]. }
  cbn [body_of] in Eb. destruct (ex (wd s0) || ewb (wd s0)).
  - assert (Em : sw (wd s0) = shared_max).
    { destruct (inc shared_max (sw (wd s0)) =? 0) eqn:Ei; [|discriminate]. apply Nat.eqb_eq in Ei. unfold inc in Ei. destruct (Nat.eqb_spec (sw (wd s0)) shared_max); [assumption|discriminate]. }
    assert (L : total (fun x => cR x + cW x) (thrs s0) < how_many (length (thrs s0)) (busy (hist s0))).
    { refine (@total_lt _ (busy (hist s0)) (thrs s0) t y _ Hy _ _).
      - intros u z Hz. destruct (i_hist HI0 u Hz) as [Au _]. unfold busy. rewrite Au. unfold cW, cR. destruct (t_pc z) as [| | |o w|o w|o rl [|]|]; cbn; try lia; destruct o; cbn; lia.
      - unfold cW, cR. destruct Ey as [->|[w ->]]; reflexivity.
      - unfold busy. now rewrite Hcl. }
    rewrite TA in L. lia.
  - assert (Em : sc (wd s0) = shared_max).
    { destruct (inc shared_max (sc (wd s0)) =? 0) eqn:Ei; [|discriminate]. apply Nat.eqb_eq in Ei. unfold inc in Ei. destruct (Nat.eqb_spec (sc (wd s0)) shared_max); [assumption|discriminate]. }
    assert (L : total (fun x => cS x + cU x) (thrs s0) < how_many (length (thrs s0)) (busy (hist s0))).
    { refine (@total_lt _ (busy (hist s0)) (thrs s0) t y _ Hy _ _).
      - intros u z Hz. unfold cS, cU. destruct (t_own z) eqn:Eo; cbn; try lia; (rewrite (@owner_busy s0 u z HI0 Hz) by congruence; cbn; lia).
      - unfold cS, cU. rewrite Cown. reflexivity.
      - unfold busy. now rewrite Hcl. }
    rewrite TA in L. lia.
Qed.

(** ** try_lock() *)
Lemma try_lock_false : forall n s l s' t, reach n s -> exec s l = Some s' -> hist s' = ERet t TryLock (RBool false) :: hist s ->
  exists s0 j, reach n s0 /\ within t s0 s /\ calling t (hist s0) = Some TryLock /\ j <> t /\
    (holds j (hist s0) <> HNone \/ exists o, calling j (hist s0) = Some o /\ acquired o = HNone).
Proof.
  intros n s l s' t Hr H E. destruct (return_event _ _ H E) as (-> & x & Hx). pose proof (inv_reach Hr) as HI.
  assert (S : exists old, t_pc x = PCas TryLock old /\ body_of TryLock old = BReturn (RBool false)).
  { cbn in H. rewrite Hx in H. unfold run, ret, goto, put in H. pose proof (i_thr HI t Hx) as C. unfold thr_ok in C. destruct (i_hist HI t Hx) as [Hcl _].
    destruct (t_pc x) as [|o|o old|o old|o old|o rl k|]; try discriminate;
      repeat match type of H with context [match ?b with _ => _ end] => destruct b eqn:? end; try discriminate; injection H as <-; cbn in E;
      try (exfalso; symmetry in E; set (h := hist s) in *; assert (Q : length h = S (length h)) by (rewrite <- E at 1; reflexivity); lia); try (injection E; intros; subst; try discriminate).
    - eauto.
    - cbn [body_of] in Heqb. destruct (pos (sc old) || ex old); discriminate.
    - destruct C; discriminate.
    - destruct C; discriminate.
    - destruct C as [C _]. discriminate C. }
  destruct S as (old & Ep & Eb). destruct (seen_reach Hr t Hx Ep) as (s0 & R0 & W0 & <- & (y & Hy & Ey)).
  pose proof (inv_reach R0) as HI0. destruct (i_hist HI0 t Hy) as [A B].
  assert (Hcl : calling t (hist s0) = Some TryLock) by (rewrite A; destruct Ey as [->|[w ->]]; reflexivity).
  pose proof (i_thr HI0 t Hy) as Ct. assert (Cown : t_own y = MNone). { unfold thr_ok in Ct. destruct Ey as [Ey|[w Ey]]; rewrite Ey in Ct; exact Ct. }
  assert (G : forall f, total f (thrs s0) > 0 -> (forall z, f z > 0 -> t_own z <> MNone) ->
     exists j, j <> t /\ (holds j (hist s0) <> HNone \/ exists o, calling j (hist s0) = Some o /\ acquired o = HNone)).
  { intros f Hf Hp. destruct (total_pos _ _ Hf) as (j & z & Hz & Hfz). specialize (Hp z Hfz). exists j. split; [intros ->; congruence|].
    destruct (i_hist HI0 j Hz) as [Aj Bj]. rewrite Aj, Bj. pose proof (i_thr HI0 j Hz) as C. unfold thr_ok in C.
    destruct (t_pc z) as [|o|o w|o w|o w|o rl k|]; cbn [call_of] in *.
    - left. destruct (t_own z); cbn; congruence.
    - rewrite C in Hp. destruct o; cbn in *; try congruence; first [left; discriminate|right; eexists; split; reflexivity].
    - rewrite C in Hp. destruct o; cbn in *; try congruence; first [left; discriminate|right; eexists; split; reflexivity].
    - destruct C; congruence.
    - destruct C; congruence.
    - destruct k as [r|w]; [|destruct C; congruence]. destruct C as [C1 C2]. destruct (failed r); [congruence|].
      destruct o; cbn in *; try congruence; left; discriminate.
    - left. discriminate. }
  destruct (i_num HI0) as [K1 K2 _ _ _ _ _ _ _ _].
  assert (G2 : exists j, j <> t /\ (holds j (hist s0) <> HNone \/ exists o, calling j (hist s0) = Some o /\ acquired o = HNone)).
  { cbn [body_of] in Eb. destruct (ex (wd s0)) eqn:Ex.
    - destruct (up (wd s0)); [contradiction|]. apply G with (f := fun z => cX z + cP z).
      + assert (TA : forall f f' l, total (fun x => f x + f' x) l = total f l + total f' l). { intros f f'. induction l as [|z l IH]; cbn; [reflexivity|rewrite IH; lia]. }
        rewrite TA. lia.
      + intros z. unfold cX, cP. destruct (t_own z); cbn; intros; try discriminate; lia.
    - rewrite orb_false_r in Eb. unfold pos in Eb. destruct (Nat.eqb_spec (sc (wd s0)) 0); [discriminate|]. apply G with (f := fun z => cS z + cU z).
      + assert (TA : forall f f' l, total (fun x => f x + f' x) l = total f l + total f' l). { intros f f'. induction l as [|z l IH]; cbn; [reflexivity|rewrite IH; lia]. }
        rewrite TA. lia.
      + intros z. unfold cS, cU. destruct (t_own z); cbn; intros; try discriminate; lia. }
  destruct G2 as (j & Hj). exists s0, j. tauto.
Qed.
