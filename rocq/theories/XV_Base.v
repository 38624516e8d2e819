(** * The Windows shared_mutex under release/acquire memory: the word and the owners (proofs)

    The invariant of WS_Proofs.v without its last clause, on wake-ups, which stale reads would break: it is kept
    for the same system with one more thread, always about to call lock(), which makes that clause trivial. *)
From Verif Require Import WS_Errors XV_Model XV_Spec.
Set Implicit Arguments.

Definition extra : thr := Thr (PRead Lock) MNone.
Definition dummy (b : sys) : sys :=
  Sys (wd b) (us b) (es b) (ps b) (thrs b ++ [extra]) (hist b ++ [ECall (length (thrs b)) Lock]).

Lemma set_app : forall l d t y, t < length l -> set_thr (l ++ d) t y = set_thr l t y ++ d.
Proof. induction l as [|z l IH]; intros d [|t] y H; cbn in *; try lia; [reflexivity|]. rewrite IH by lia. reflexivity. Qed.
Lemma put_dummy : forall b t p m w u e q ev, t < length (thrs b) ->
  put (dummy b) t p m w u e q ev = option_map dummy (put b t p m w u e q ev).
Proof.
  intros. unfold put, dummy, option_map. cbn [thrs hist wd us es ps]. now rewrite set_app, length_set, app_assoc by auto.
Qed.
Lemma run_dummy : forall b t x, t < length (thrs b) -> run (dummy b) t x = option_map dummy (run b t x).
Proof.
  intros b t x H. unfold run, goto, ret. change (wd (dummy b)) with (wd b). change (us (dummy b)) with (us b).
  change (es (dummy b)) with (es b). change (ps (dummy b)) with (ps b).
  repeat match goal with
  | |- match ?a with _ => _ end = _ => destruct a
  | |- put (dummy b) _ _ _ _ _ _ _ _ = _ => now apply put_dummy
  | |- None = _ => reflexivity
  end.
Qed.
Lemma exec_dummy : forall b l b', exec b l = Some b' -> exec (dummy b) l = Some (dummy b').
Proof.
  intros b l b' H. destruct l as [t o|t|t]; cbn [exec] in *; destruct (nth_error (thrs b) t) as [x|] eqn:E; try discriminate;
    assert (L : t < length (thrs b)) by (apply nth_error_Some; congruence);
    unfold dummy at 1; cbn [thrs]; rewrite nth_error_app1, E by auto.
  - unfold call in *. destruct (t_pc x); try discriminate. destruct (mode_eqb (t_own x) (needs o)); [|discriminate].
    change (wd (dummy b)) with (wd b). change (us (dummy b)) with (us b). change (es (dummy b)) with (es b). change (ps (dummy b)) with (ps b).
    rewrite put_dummy, H by auto. reflexivity.
  - rewrite run_dummy, H by auto. reflexivity.
  - unfold time_out, goto in *. destruct (t_pc x); try discriminate. destruct (is_timed o); [|discriminate].
    change (wd (dummy b)) with (wd b). change (us (dummy b)) with (us b). change (es (dummy b)) with (es b). change (ps (dummy b)) with (ps b).
    rewrite put_dummy, H by auto. reflexivity.
Qed.
Lemma inv_exec : forall s l s', Inv s -> exec s l = Some s' -> Inv s'.
Proof.
  intros s l s' HI H. destruct l as [t o|t|t]; cbn in H; destruct (nth_error (thrs s) t) as [x|] eqn:Hx; try discriminate.
  - eapply inv_call; eauto.
  - eapply inv_run; eauto.
  - eapply inv_timeout; eauto.
Qed.
Definition InvR (b : sys) : Prop := Inv (dummy b).
Lemma invR_exec : forall b l b', InvR b -> exec b l = Some b' -> InvR b'.
Proof. intros b l b' H E. eapply inv_exec; [exact H|]. apply exec_dummy. exact E. Qed.
Lemma set_repeat : forall n y, set_thr (repeat (Thr PIdle MNone) (S n)) n y = repeat (Thr PIdle MNone) n ++ [y].
Proof. induction n as [|n IH]; intros y; [reflexivity|]. cbn [repeat set_thr app]. f_equal. apply IH. Qed.
Lemma invR_init : forall n, InvR (init n).
Proof.
  intros n. unfold InvR. assert (E : exec (init (S n)) (LCall n Lock) = Some (dummy (init n))).
  { cbn [exec]. assert (Q : nth_error (thrs (init (S n))) n = Some (Thr PIdle MNone)).
    { unfold init, thrs. rewrite nth_error_repeat; auto. }
    rewrite Q. unfold call. cbn [t_pc t_own needs mode_eqb]. unfold put, dummy. cbn [thrs init hist wd us es ps app].
    rewrite set_repeat, repeat_length. reflexivity. }
  eapply inv_exec; [apply inv_init|exact E].
Qed.

Lemma total_app : forall f l d, total f (l ++ d) = total f l + total f d.
Proof. intros f. induction l as [|x l IH]; intros d; cbn; [reflexivity|]. rewrite IH. lia. Qed.
Lemma total_same : forall f l t x y, nth_error l t = Some x -> f y = f x -> total f (set_thr l t y) = total f l.
Proof. intros f l t x y H E. pose proof (total_set f l t y H). lia. Qed.

(** A thread has read the word, which may be stale. *)
Lemma invR_stale : forall b t x y, InvR b -> nth_error (thrs b) t = Some x ->
  cS y = cS x -> cU y = cU x -> cP y = cP x -> cX y = cX x -> cW y = cW x -> cR y = cR x ->
  dU x <= dU y -> dE y = dE x -> dP y = dP x -> thr_ok y -> t_own y = t_own x -> call_of (t_pc y) = call_of (t_pc x) -> call_of (t_pc x) <> None ->
  InvR (Sys (wd b) (us b) (es b) (ps b) (set_thr (thrs b) t y) (hist b)).
Proof.
  intros b t x y [HN HT HH] Hx E1 E2 E3 E4 E5 E6 E7 E8 E9 Hy Eo Ec Nc.
  assert (L : t < length (thrs b)) by (apply nth_error_Some; congruence).
  assert (Hx' : nth_error (thrs b ++ [extra]) t = Some x) by (rewrite nth_error_app1; auto).
  unfold InvR, dummy. cbn [wd us es ps thrs hist]. rewrite length_set. constructor.
  - unfold Num in *. cbn [dummy wd us es ps thrs] in *. rewrite !total_app in *.
    pose proof (total_set dU (thrs b) t y Hx) as Q7.
    rewrite (total_same cS _ _ _ Hx E1), (total_same cU _ _ _ Hx E2), (total_same cP _ _ _ Hx E3), (total_same cX _ _ _ Hx E4),
      (total_same cW _ _ _ Hx E5), (total_same cR _ _ _ Hx E6), (total_same dE _ _ _ Hx E8), (total_same dP _ _ _ Hx E9).
    destruct HN as [K1 K2 K3 K4 K5 K6 K7 K8 K9 K10]. constructor; auto.
    + lia.
    + intros _ _. cbn. lia.
  - intros u z Hz. cbn [thrs dummy] in *. rewrite <- set_app in Hz by auto. destruct (Nat.eq_dec t u) as [<-|N].
    + rewrite (nth_set_same _ _ _ Hx') in Hz. now injection Hz as <-.
    + rewrite nth_set_other in Hz by auto. exact (HT u z Hz).
  - intros u z Hz. cbn [thrs dummy hist] in *. rewrite <- set_app in Hz by auto. destruct (Nat.eq_dec t u) as [<-|N].
    + rewrite (nth_set_same _ _ _ Hx') in Hz. injection Hz as <-. destruct (HH t x Hx') as [A B]. split; cbn [hist dummy] in *.
      * now rewrite Ec.
      * rewrite Ec. destruct (call_of (t_pc x)); [exact B|easy].
    + rewrite nth_set_other in Hz by auto. exact (HH u z Hz).
Qed.

(** What the steps that read do to the thread. *)
Lemma exec_inv : forall b t b', exec b (LRun t) = Some b' -> exists x, nth_error (thrs b) t = Some x /\ run b t x = Some b'.
Proof. intros b t b' H. cbn in H. destruct (nth_error (thrs b) t) as [x|]; [eauto|discriminate]. Qed.
Definition like (x y : thr) : Prop :=
  t_own y = t_own x /\ dP y = dP x.
Lemma run_stale : forall b t x w b', InvR b -> nth_error (thrs b) t = Some x ->
  uses (t_pc x) = ULoad \/ (exists old, uses (t_pc x) = UCas old /\ word_eqb w old = false) ->
  run (with_wd b w) t x = Some b' ->
  InvR (with_wd b' (wd b)) /\ ps b' = ps b /\ exists y, thrs b' = set_thr (thrs b) t y /\ like x y.
Proof.
  intros b t x w b' I Hx U H.
  assert (L : t < length (thrs b)) by (apply nth_error_Some; congruence).
  assert (Ht : thr_ok x) by (apply (i_thr I t); cbn [dummy thrs]; rewrite nth_error_app1; auto).
  unfold run, goto, put in H. cbn [with_wd wd us es ps thrs hist app] in H.
  destruct x as [p m]. cbn [t_pc t_own] in *. destruct p as [|o|o old|o old|o old|o l k|]; cbn [uses] in U;
    try (destruct U as [U|(old' & U & W)]; discriminate).
  - injection H as <-. split; [|split; [reflexivity|eexists; split; [reflexivity|split; reflexivity]]].
    refine (@invR_stale b t _ (Thr (PCas o w) m) I Hx _ _ _ _ _ _ _ _ _ _ _ _ _); auto; try reflexivity; discriminate.
  - destruct (body_of o old) as [r|new a]; [destruct U as [U|(old' & U & W)]; discriminate|].
    destruct U as [U|(old' & U & W)]; [discriminate|]. injection U as <-. rewrite W in H.
    injection H as <-. split; [|split; [reflexivity|eexists; split; [reflexivity|split; reflexivity]]].
    refine (@invR_stale b t _ (Thr (PCas o w) m) I Hx _ _ _ _ _ _ _ _ _ _ _ _ _); auto; try reflexivity; discriminate.
  - destruct (give_body o old) as [r|new must r]; [destruct U as [U|(old' & U & W)]; discriminate|].
    destruct U as [U|(old' & U & W)]; [discriminate|]. injection U as <-. rewrite W in H.
    destruct must; injection H as <-; (split; [|split; [reflexivity|eexists; split; [reflexivity|split; reflexivity]]]).
    + refine (@invR_stale b t _ (Thr (PRel o [(SU, 1)] (KGive w)) m) I Hx _ _ _ _ _ _ _ _ _ _ _ _ _); auto; try reflexivity; try discriminate. cbn. lia.
    + refine (@invR_stale b t _ (Thr (PGive o w) m) I Hx _ _ _ _ _ _ _ _ _ _ _ _ _); auto; try reflexivity; discriminate.
  - destruct l as [|[[] n] l]; cbn in U; destruct U as [U|(old' & U & W)]; discriminate.
Qed.
Lemma run_none : forall b t x b', nth_error (thrs b) t = Some x -> uses (t_pc x) = UNone -> run b t x = Some b' ->
  wd b' = wd b /\ ps b' = ps b /\ exists y, thrs b' = set_thr (thrs b) t y /\ like x y.
Proof.
  intros b t x b' Hx U H. unfold run, goto, ret, put in H. destruct x as [p m]. cbn [t_pc t_own] in *.
  destruct p as [|o|o old|o old|o old|o l k|]; cbn [uses] in U; try discriminate.
  - destruct (body_of o old); [|discriminate]. injection H as <-. repeat split. eexists; split; [reflexivity|split; reflexivity].
  - destruct (is_writer o), (us b); try discriminate; try (destruct (es b); [discriminate|]); injection H as <-; repeat split; (eexists; split; [reflexivity|split; reflexivity]).
  - destruct (give_body o old); [|discriminate]. injection H as <-. repeat split. eexists; split; [reflexivity|split; reflexivity].
  - destruct l as [|[[] n] l]; [destruct k|..]; try discriminate; injection H as <-; repeat split; (eexists; split; [reflexivity|split; reflexivity]).
Qed.
Lemma run_post : forall b t x n b', nth_error (thrs b) t = Some x -> uses (t_pc x) = UPost n -> run b t x = Some b' ->
  wd b' = wd b /\ ps b' = ps b + n /\ exists y, thrs b' = set_thr (thrs b) t y /\ t_own y = t_own x /\ dP x = n + dP y.
Proof.
  intros b t x n b' Hx U H. unfold run, goto, ret, put in H. destruct x as [p m]. cbn [t_pc t_own] in *.
  destruct p as [|o|o old|o old|o old|o l k|]; cbn [uses] in U; try discriminate.
  - destruct (body_of o old); discriminate.
  - destruct (give_body o old); discriminate.
  - destruct l as [|[[] n'] l]; try discriminate. injection U as ->. injection H as <-. repeat split. eexists; split; [reflexivity|split; reflexivity].
Qed.
Lemma run_pend : forall b t x b', InvR b -> nth_error (thrs b) t = Some x -> uses (t_pc x) = UPend -> run b t x = Some b' ->
  wd b' = wd b /\ ps b = S (ps b') /\ t_own x = MPend /\ exists y, thrs b' = set_thr (thrs b) t y /\ t_own y = MExcl /\ dP y = 0.
Proof.
  intros b t x b' I Hx U H.
  assert (L : t < length (thrs b)) by (apply nth_error_Some; congruence).
  assert (Ht : thr_ok x) by (apply (i_thr I t); cbn [dummy thrs]; rewrite nth_error_app1; auto).
  unfold run, goto, ret, put in H. destruct x as [p m]. cbn [t_pc t_own] in *.
  destruct p as [|o|o old|o old|o old|o l k|]; cbn [uses] in U; try discriminate.
  - destruct (body_of o old); discriminate.
  - destruct (give_body o old); discriminate.
  - destruct l as [|[[] n'] l]; discriminate.
  - destruct (ps b) as [|p]; [discriminate|]. injection H as <-. repeat split; auto. eexists; split; [reflexivity|split; reflexivity].
Qed.
Lemma run_cas : forall b t x old b', nth_error (thrs b) t = Some x -> uses (t_pc x) = UCas old -> run b t x = Some b' ->
  ps b' = ps b /\ exists y, thrs b' = set_thr (thrs b) t y.
Proof.
  intros b t x old b' Hx U H. unfold run, goto, ret, put in H. destruct x as [p m]. cbn [t_pc t_own] in *.
  destruct p as [|o|o old'|o old'|o old'|o l k|]; cbn [uses] in U; try discriminate.
  - destruct (body_of o old') as [|new a]; [discriminate|]. destruct (word_eqb (wd b) old'); [|injection H as <-; split; [reflexivity|eexists; reflexivity]].
    destruct a as [[|[]|]| |l|]; injection H as <-; (split; [reflexivity|eexists; reflexivity]).
  - destruct (give_body o old') as [|new must r]; [discriminate|]. destruct (word_eqb (wd b) old'); destruct must; injection H as <-; (split; [reflexivity|eexists; reflexivity]).
  - destruct l as [|[[] n'] l]; discriminate.
Qed.
Lemma step_call : forall b t o b', exec b (LCall t o) = Some b' -> wd b' = wd b /\ ps b' = ps b /\
  exists x y, nth_error (thrs b) t = Some x /\ thrs b' = set_thr (thrs b) t y /\ like x y.
Proof.
  intros b t o b' H. cbn in H. destruct (nth_error (thrs b) t) as [x|] eqn:Hx; [|discriminate]. unfold call, put in H.
  destruct x as [p m]. cbn [t_pc t_own] in *. destruct p; try discriminate. destruct (mode_eqb m (needs o)); [|discriminate]. injection H as <-.
  repeat split. do 2 eexists. split; [reflexivity|]. split; [reflexivity|split; reflexivity].
Qed.
Lemma step_late : forall b t b', exec b (LTimeout t) = Some b' -> wd b' = wd b /\ ps b' = ps b /\
  exists x y, nth_error (thrs b) t = Some x /\ thrs b' = set_thr (thrs b) t y /\ like x y.
Proof.
  intros b t b' H. cbn in H. destruct (nth_error (thrs b) t) as [x|] eqn:Hx; [|discriminate]. unfold time_out, goto, put in H.
  destruct x as [p m]. cbn [t_pc t_own] in *. destruct p; try discriminate. destruct (is_timed o); [|discriminate]. injection H as <-.
  repeat split. do 2 eexists. split; [reflexivity|]. split; [reflexivity|split; reflexivity].
Qed.

(** ** Who may own what at the same time *)
Definition owner (m : mode) : Prop := m = MShared \/ m = MUpgrade \/ m = MExcl.
(** The totals over the threads. *)
Lemma phase : forall b, InvR b -> sc (wd b) = total cS (thrs b) + total cU (thrs b) /\
  match ex (wd b), up (wd b) with
  | false, true => total cU (thrs b) + total cP (thrs b) = 1 /\ total cX (thrs b) = 0 /\ sc (wd b) > 0 /\ ps b + total dP (thrs b) = 0
  | true, false => sc (wd b) = 0 /\ total cX (thrs b) + total cP (thrs b) = 1 /\ ps b + total dP (thrs b) = total cP (thrs b)
  | false, false => total cU (thrs b) + total cP (thrs b) + total cX (thrs b) = 0 /\ ps b + total dP (thrs b) = 0
  | true, true => False
  end.
Proof.
  intros b I. pose proof (i_num I) as [K1 K2 _ _ _ _ _ _ _ _]. cbn [dummy thrs wd ps] in *. rewrite !total_app in *. cbn [total extra] in *.
  change (cS extra) with 0 in *. change (cU extra) with 0 in *. change (cP extra) with 0 in *. change (cX extra) with 0 in *. change (dP extra) with 0 in *.
  destruct (ex (wd b)), (up (wd b)); lia.
Qed.
(** An exclusive owner is alone, and nobody is being given the mutex. *)
Lemma excl_alone : forall b t x, InvR b -> nth_error (thrs b) t = Some x -> t_own x = MExcl ->
  (forall u z, nth_error (thrs b) u = Some z -> u <> t -> t_own z = MNone) /\ ps b = 0 /\ (forall u z, nth_error (thrs b) u = Some z -> dP z = 0).
Proof.
  intros b t x I Hx E. destruct (phase I) as [P1 P2].
  pose proof (total_ge cX _ _ Hx) as GX. unfold cX at 1 in GX. rewrite E in GX. cbn in GX.
  assert (P : total cS (thrs b) = 0 /\ total cU (thrs b) = 0 /\ total cX (thrs b) = 1 /\ total cP (thrs b) = 0 /\ ps b = 0 /\ total dP (thrs b) = 0)
    by (destruct (ex (wd b)), (up (wd b)); try contradiction; lia).
  destruct P as (A1 & A2 & A3 & A4 & A5 & A6). split; [|split; [auto|]].
  - intros u z Hz N. pose proof (total_ge cS _ _ Hz) as G1. pose proof (total_ge cU _ _ Hz) as G2. pose proof (total_ge cP _ _ Hz) as G3.
    pose proof (@total_ge2 cX (thrs b) t x u z Hx Hz (not_eq_sym N)) as G4. unfold cS at 1 in G1. unfold cU at 1 in G2. unfold cP at 1 in G3. unfold cX at 1 2 in G4.
    rewrite E in G4. destruct (t_own z); cbn in *; auto; lia.
  - intros u z Hz. pose proof (total_ge dP _ _ Hz). lia.
Qed.
Lemma shared_ok : forall b t x, InvR b -> nth_error (thrs b) t = Some x -> t_own x = MShared \/ t_own x = MUpgrade ->
  (forall u z, nth_error (thrs b) u = Some z -> t_own z <> MExcl) /\ ps b = 0 /\ (forall u z, nth_error (thrs b) u = Some z -> dP z = 0).
Proof.
  intros b t x I Hx E. destruct (phase I) as [P1 P2].
  pose proof (total_ge cS _ _ Hx) as GS. pose proof (total_ge cU _ _ Hx) as GU. unfold cS at 1 in GS. unfold cU at 1 in GU.
  assert (P : total cX (thrs b) = 0 /\ ps b = 0 /\ total dP (thrs b) = 0).
  { assert (1 <= total cS (thrs b) + total cU (thrs b)) by (destruct E as [E|E]; rewrite E in *; cbn in *; lia).
    destruct (ex (wd b)), (up (wd b)); try contradiction; lia. }
  destruct P as (A1 & A2 & A3). split; [|split; [auto|]].
  - intros u z Hz Q. pose proof (total_ge cX _ _ Hz) as G. unfold cX at 1 in G. rewrite Q in G. cbn in G. lia.
  - intros u z Hz. pose proof (total_ge dP _ _ Hz). lia.
Qed.
(** While the mutex is being given to a thread that upgrades, nobody owns it. *)
Lemma giving : forall b t x, InvR b -> nth_error (thrs b) t = Some x -> 0 < dP x ->
  forall u z, nth_error (thrs b) u = Some z -> ~ owner (t_own z).
Proof.
  intros b t x I Hx E u z Hz [O|[O|O]].
  - destruct (@shared_ok b u z I Hz (or_introl O)) as (_ & _ & D). specialize (D _ _ Hx). lia.
  - destruct (@shared_ok b u z I Hz (or_intror O)) as (_ & _ & D). specialize (D _ _ Hx). lia.
  - destruct (@excl_alone b u z I Hz O) as (_ & _ & D). specialize (D _ _ Hx). lia.
Qed.
