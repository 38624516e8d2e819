(** * The Windows shared_mutex: a waiting writer keeps new readers out *)
From Verif Require Export WS_Spec2 WS_Errors.
Set Implicit Arguments.

Definition cB (x : thr) := match t_pc x with PRead o | PCas o _ => b2n (is_writer o) | _ => 0 end.
Definition J (w : word) (e qE nB : nat) : Prop := ew w > 0 -> ewb w = false -> ex w = false -> e + qE + nB > 0.
Definition JS (s : sys) : Prop := J (wd s) (es s) (total dE (thrs s)) (total cB (thrs s)).
Definition no_throw (h : list event) : Prop := forall t, ~ In (ERet t Lock RThrow) h.

Lemma j_step : forall s t x y w u e p h,
  nth_error (thrs s) t = Some x ->
  (forall qE nB, J (wd s) (es s) (dE x + qE) (cB x + nB) -> J w e (dE y + qE) (cB y + nB)) ->
  JS s -> JS (Sys w u e p (set_thr (thrs s) t y) h).
Proof.
  intros s t x y w u e p h Hx H HN. unfold JS in *. cbn [wd us es ps thrs].
  assert (G : forall f, exists n, total f (thrs s) = f x + n /\ total f (set_thr (thrs s) t y) = f y + n).
  { intros f. pose proof (total_set f (thrs s) t y Hx). pose proof (total_ge f (thrs s) t Hx). exists (total f (thrs s) - f x). lia. }
  destruct (G dE) as (qE & E7 & ->), (G cB) as (nB & E8 & ->). apply H. now rewrite E7, E8 in HN.
Qed.
Lemma j_cas : forall o old new a m p' m' e qE nB,
  body_of o old = BCas new a -> o <> TimedLock -> (ewb old = true -> ew old > 0) ->
  (exists r, a = AReturn r) /\ p' = PIdle \/
   a = AWait /\ p' = PSleep o old \/
   (exists l, a = ARelease l /\ p' = PRel o l (KRet RDone)) \/
   a = AUpWait /\ p' = PUp ->
  let x := Thr (PCas o old) m in let y := Thr p' m' in
  J old e (dE x + qE) (cB x + nB) -> J new e (dE y + qE) (cB y + nB).
Proof.
  intros o old new a m p' m' e qE nB Hb Hok Hw Ha x y HN.
  pose proof sm_pos as SM. pose proof em_pos as EM.
  subst x y. destruct old as [c w x g v b]. unfold J, cB in *.
  destruct o; cbn [body_of] in Hb; try congruence.
  all: destruct x, g, b; unf; bools; try discriminate; try (injection Hb as <- <-);
    try (injection Hb as <-); repeat match goal with H : _ \/ _ |- _ => destruct H | H : _ /\ _ |- _ => destruct H | H : exists _, _ |- _ => destruct H end;
    subst; try congruence.
  all: repeat match goal with H : ARelease _ = ARelease _ |- _ => injection H as <- end.
  all: cbn [mode_eqb b2n of_sem isU isE isP app is_writer negb sc sw ex up ew ewb] in *.
  all: intros A1 A2 A3; try discriminate; try lia.
  all: repeat match goal with H : ?a = ?a -> _ |- _ => specialize (H eq_refl) | H : _ > 0 -> _ |- _ => specialize (H ltac:(lia)) end; try lia; auto.
Qed.
Lemma JS_reach : forall n s, reach n s -> never TimedLock (hist s) -> no_throw (hist s) -> JS s.
Proof.
  intros n s Hr. induction Hr as [|s l s' Hr IH H]; intros Hn Ht.
  { intros A. cbn in A. lia. }
  pose proof (inv_reach Hr) as HI.
  assert (Hh : forall e, In e (hist s) -> In e (hist s')) by (intros e He; destruct (exec_hist _ _ H) as (u & _ & [->|(e' & -> & _)]); [exact He|right; exact He]).
  assert (Hn0 : never TimedLock (hist s)) by (intros u Hi; apply (Hn u); auto).
  assert (IHs : JS s) by (apply IH; [exact Hn0|intros u Hi; apply (Ht u); auto]). clear IH.
  destruct l as [t o|t|t]; cbn in H; destruct (nth_error (thrs s) t) as [x|] eqn:Hx; try discriminate.
  - unfold call, put in H. destruct x as [p m]. cbn [t_pc t_own] in H. destruct p; try discriminate. destruct (mode_eqb _ _); [|discriminate]. injection H as <-.
    refine (@j_step s t _ _ _ _ _ _ _ Hx _ IHs). intros qE nB. unfold J, cB. unf. intros A B C D. specialize (A B C D). lia.
  - pose proof (i_thr HI t Hx) as Hto. destruct (i_hist HI t Hx) as [Hcl _].
    assert (Hok : forall o, call_of (t_pc x) = Some o -> o <> TimedLock) by (intros o E ->; rewrite E in Hcl; exact (Hn0 t (calling_in _ _ Hcl))).
    pose proof (i_num HI) as [_ _ _ _ _ _ _ K8 _ _].
    unfold run, ret, goto, put in H. destruct x as [p m]. cbn [t_pc t_own] in *. destruct p as [|o|o old|o old|o old|o l k|]; try discriminate.
    + injection H as <-. refine (@j_step s t _ _ _ _ _ _ _ Hx _ IHs). intros qE nB. unfold J, cB. unf. auto.
    + specialize (Hok o eq_refl). destruct (body_of o old) as [r|new a] eqn:Eb.
      * injection H as <-. refine (@j_step s t _ _ _ _ _ _ _ Hx _ IHs). intros qE nB. unfold J, cB. unf.
        assert (E : is_writer o = false).
        { destruct o; try reflexivity; [|congruence]. exfalso. cbn [body_of] in Eb. destruct (pos (sc old) || ex old); [|discriminate]. destruct (inc exclusive_max (ew old) =? 0); [|discriminate]. injection Eb as <-. apply (Ht t). left. reflexivity. }
        rewrite E. auto.
      * destruct (word_eqb (wd s) old) eqn:Ew.
        -- apply word_eqb_eq in Ew.
           assert (G : exists p' m' h, s' = Sys new (us s) (es s) (ps s) (set_thr (thrs s) t (Thr p' m')) h /\
             ((exists r, a = AReturn r) /\ p' = PIdle \/ a = AWait /\ p' = PSleep o old \/ (exists l, a = ARelease l /\ p' = PRel o l (KRet RDone)) \/ a = AUpWait /\ p' = PUp)).
           { destruct a as [[|[]|]| |l|]; injection H as <-; eexists _, _, _; (split; [reflexivity|]); eauto 6. }
           destruct G as (p' & m' & h & -> & Ha). refine (@j_step s t _ _ _ _ _ _ _ Hx _ IHs). intros qE nB. rewrite Ew in *. refine (@j_cas _ _ _ _ _ _ _ _ _ _ Eb Hok K8 Ha).
        -- injection H as <-. refine (@j_step s t _ _ _ _ _ _ _ Hx _ IHs). intros qE nB. unfold J, cB. unf. auto.
    + destruct (is_writer o) eqn:Ewr.
      * destruct (us s) as [|u] eqn:Eu; [discriminate|]. destruct (es s) as [|e] eqn:Ee; [discriminate|]. injection H as <-.
        refine (@j_step s t _ _ _ _ _ _ _ Hx _ IHs). intros qE nB. rewrite Ee. unfold J, cB. unf. rewrite Ewr. cbn [b2n]. intros; lia.
      * destruct (us s) as [|u] eqn:Eu; [discriminate|]. injection H as <-.
        refine (@j_step s t _ _ _ _ _ _ _ Hx _ IHs). intros qE nB. unfold J, cB. unf. rewrite Ewr. auto.
    + cbn in Hto. destruct Hto as [Hw ->]. specialize (Hok o eq_refl). assert (o = TimedLockShared) as -> by (destruct o; try discriminate Hw; congruence). destruct (give_body TimedLockShared old) as [r|new must r] eqn:Eb.
      * injection H as <-. refine (@j_step s t _ _ _ _ _ _ _ Hx _ IHs). intros qE nB. unfold J, cB. unf. auto.
      * destruct (word_eqb (wd s) old) eqn:Ew.
        -- apply word_eqb_eq in Ew. subst old.
           assert (Es : must = false /\ ew new = ew (wd s) /\ ewb new = ewb (wd s) /\ ex new = ex (wd s)).
           { cbn [give_body] in Eb. destruct (ex (wd s) || ewb (wd s)); [destruct (pos (sw (wd s)))|destruct (inc shared_max (sc (wd s)) =? 0); [discriminate|]]; injection Eb as <- <- <-; auto. }
           destruct Es as (-> & E1 & E2 & E3). injection H as <-. refine (@j_step s t _ _ _ _ _ _ _ Hx _ IHs). intros qE nB. unfold J. rewrite E1, E2, E3. unfold cB. unf. auto.
        -- destruct must; injection H as <-; refine (@j_step s t _ _ _ _ _ _ _ Hx _ IHs); intros qE nB; unfold J, cB; unf; auto.
    + destruct l as [|[[] n'] l]; [destruct k as [r|old]| | |]; injection H as <-; refine (@j_step s t _ _ _ _ _ _ _ Hx _ IHs); intros qE nB; unfold J, cB; unf; intros A B C D; specialize (A B C D); lia.
    + destruct (ps s) as [|p]; [discriminate|]. injection H as <-. refine (@j_step s t _ _ _ _ _ _ _ Hx _ IHs). intros qE nB. unfold J, cB. unf. auto.
  - unfold time_out, goto, put in H. destruct x as [p m]. cbn [t_pc t_own] in H. destruct p; try discriminate. destruct (is_timed o); [|discriminate]. injection H as <-.
    refine (@j_step s t _ _ _ _ _ _ _ Hx _ IHs). intros qE nB. unfold J, cB. unf. auto.
Qed.

Lemma waiting_flag : forall n s t, reach n s -> never TimedLock (hist s) -> never LockUpgrade (hist s) -> no_throw (hist s) ->
  at_rest s -> calling t (hist s) = Some Lock -> ex (wd s) || ewb (wd s) = true.
Proof.
  intros n s t Hr N1 N2 Hnt Ha Hc. pose proof (inv_reach Hr) as HI. pose proof (JS_reach Hr N1 Hnt) as HJ.
  set (ok := fun o => match o with TimedLock | LockUpgrade => false | _ => true end).
  assert (Hp : reachP ok n s).
  { apply reachP_of; [exact Hr|]. intros u o Hi. destruct o; try reflexivity; exfalso; [eapply N1|eapply N2]; exact Hi. }
  destruct (QS_reach Hp) as (Q1 & Q2 & _). specialize (Q1 eq_refl). specialize (Q2 eq_refl eq_refl).
  destruct (@in_range n s t Hr) as [x Hx]; [right; congruence|]. destruct (i_hist HI t Hx) as [A _].
  pose proof (i_num HI) as [K1 K2 _ _ _ K6 K7 K8 K9 K10].
  assert (Z1 : total dU (thrs s) = 0). { apply rest_pending; auto. intros [] m; try contradiction; reflexivity. }
  assert (Z2 : total dE (thrs s) = 0). { apply rest_pending; auto. intros [] m; try contradiction; reflexivity. }
  assert (Z3 : total cB (thrs s) = 0). { apply rest_pending; auto. intros [] m; try contradiction; reflexivity. }
  unfold JS, J in HJ. rewrite Z2, Z3 in HJ. rewrite Z1, Z2 in K7. rewrite Z2 in Q1.
  destruct (ex (wd s)) eqn:E1; [reflexivity|]. destruct (ewb (wd s)) eqn:E2; [reflexivity|]. exfalso.
  assert (S0 : sw (wd s) = 0) by (destruct (sw (wd s)); [reflexivity|]; destruct Q2; [lia|congruence|congruence]).
  destruct (@runs s t x Hx (Ha t) HI) as [E|[(o & old & E & Ez)|[E Ez]]]; rewrite E in A; cbn in A; try congruence.
  assert (o = Lock) as -> by congruence. pose proof (total_ge cW (thrs s) t Hx) as G. unfold cW in G at 1. rewrite E in G. cbn in G.
  assert (es s = 0) by (destruct Ez as [Ez|(_ & Ez)]; lia). assert (ew (wd s) > 0) by lia. specialize (HJ H0 eq_refl eq_refl). lia.
Qed.

(** ** The reader *)
Notation reads := for_reading.
Definition shut (w : word) : bool := ex w || ewb w.
Definition kept (s : sys) (j : nat) : Prop :=
  shut (wd s) = true /\ holds j (hist s) = HNone /\ exists x, nth_error (thrs s) j = Some x /\
  match t_pc x with PIdle => True | PRead o => reads o = true | PCas o old => reads o = true /\ shut old = true | PSleep o _ => reads o = true | _ => False end.
Lemma shut_body o w : reads o = true -> shut w = true -> (exists r, body_of o w = BReturn r /\ failed r = true) \/ (body_of o w = BCas w (AReturn (RBool false))) \/ exists w', body_of o w = BCas w' AWait /\ shut w' = true.
Proof.
  unfold shut. intros Ho Hs. destruct o; try discriminate; cbn [body_of]; try rewrite Hs; cbn [orb].
  - destruct (inc shared_max (sw w) =? 0); [left|right; right]; eexists; split; try reflexivity. exact Hs.
  - assert (E : negb (ex w) && negb (ewb w) = false) by (destruct (ex w), (ewb w); auto). rewrite E. auto.
  - destruct (inc shared_max (sw w) =? 0); [left|right; right]; eexists; split; try reflexivity. exact Hs.
  - destruct (inc shared_max (sw w) =? 0); [left|right; right]; eexists; split; try reflexivity. exact Hs.
  - left. eexists. split; reflexivity.
Qed.
Lemma kept_step s j s' : kept s j -> exec s (LRun j) = Some s' -> kept s' j.
Proof.
  intros (Hs & Hh & x & Hx & Hp) H. cbn in H. rewrite Hx in H. unfold run, ret, goto, put in H. destruct x as [p m]. cbn [t_pc t_own] in *.
  assert (G : forall p' m' w u e q ev, shut w = true -> holds j (ev ++ hist s) = HNone ->
    match p' with PIdle => True | PRead o => reads o = true | PCas o old => reads o = true /\ shut old = true | PSleep o _ => reads o = true | _ => False end ->
    kept (Sys w u e q (set_thr (thrs s) j (Thr p' m')) (ev ++ hist s)) j).
  { intros p' m' w u e q ev A B C. split; [exact A|]. split; [exact B|]. exists (Thr p' m'). split; [eapply nth_set_same; exact Hx|exact C]. }
  destruct p as [|o|o old|o old| | |]; try contradiction; try discriminate.
  - injection H as <-. apply (G _ _ _ _ _ _ []); auto.
  - destruct Hp as (Ho & Hold). destruct (shut_body _ _ Ho Hold) as [(r & E & F)|[E|(w' & E & F)]]; rewrite E in H.
    + injection H as <-. apply (G _ _ _ _ _ _ [ERet j o r]); auto. cbn. rewrite Nat.eqb_refl, F. reflexivity.
    + destruct (word_eqb (wd s) old); injection H as <-; [apply (G _ _ _ _ _ _ [ERet j o (RBool false)])|apply (G _ _ _ _ _ _ [])]; auto. cbn. rewrite Nat.eqb_refl. reflexivity.
    + destruct (word_eqb (wd s) old); injection H as <-; apply (G _ _ _ _ _ _ []); auto.
  - assert (E : is_writer o = false) by (destruct o; try discriminate; reflexivity). rewrite E in H. destruct (us s); [discriminate|]. injection H as <-. apply (G _ _ _ _ _ _ []); auto.
Qed.
Lemma kept_alone s j s' : alone j s s' -> kept s j -> kept s' j.
Proof. induction 1; intros K; [exact K|]. exact (kept_step (IHalone K) H0). Qed.
Lemma writer_keeps_out : forall n s t j o s1 s', reach n s -> never TimedLock (hist s) -> never LockUpgrade (hist s) -> no_throw (hist s) ->
  at_rest s -> calling t (hist s) = Some Lock -> reads o = true -> exec s (LCall j o) = Some s1 -> alone j s1 s' -> holds j (hist s') = HNone.
Proof.
  intros n s t j o s1 s' Hr N1 N2 N3 Ha Hc Ho H Hs. pose proof (@waiting_flag n s t Hr N1 N2 N3 Ha Hc) as Hf.
  assert (K : kept s1 j); [|exact (proj1 (proj2 (kept_alone Hs K)))].
  cbn in H. destruct (nth_error (thrs s) j) as [x|] eqn:Hx; [|discriminate]. unfold call, put in H. destruct (t_pc x); try discriminate. destruct (mode_eqb _ _); [|discriminate]. injection H as <-.
  split; [exact Hf|]. split; [cbn; rewrite Nat.eqb_refl; destruct o; try discriminate; reflexivity|]. eexists. split; [eapply nth_set_same; exact Hx|exact Ho].
Qed.
