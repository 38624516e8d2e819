(** * The Windows shared_mutex: programs that do not use some of the operations *)
From Verif Require Export WS_Rest.
Set Implicit Arguments.

Section Plain.
Variable ok : op -> bool.

Inductive reachP (n : nat) : sys -> Prop :=
| rp_init : reachP n (init n)
| rp_step s l s' : reachP n s -> exec s l = Some s' -> (forall t o, l = LCall t o -> ok o = true) -> reachP n s'.

Lemma reachP_reach : forall n s, reachP n s -> reach n s.
Proof. intros n s H. induction H; [constructor|econstructor; eauto]. Qed.

Lemma reachP_of : forall n s, reach n s -> (forall t o, In (ECall t o) (hist s) -> ok o = true) -> reachP n s.
Proof.
  intros n s H. induction H as [|s l s' Hr IH H]; intros Hc; [constructor|]. econstructor; [apply IH|exact H|].
  - intros t o Hi. apply (Hc t o). destruct (exec_hist _ _ H) as (u & _ & [->|(e & -> & _)]); [exact Hi|now right].
  - intros t o ->. apply (Hc t o). cbn in H. destruct (nth_error (thrs s) t) as [x|]; [|discriminate]. unfold call, put in H. destruct (t_pc x); try discriminate.
    destruct (mode_eqb _ _); [|discriminate]. injection H as <-. now left.
Qed.

Lemma calling_in : forall t h o, calling t h = Some o -> In (ECall t o) h.
Proof.
  intros t. induction h as [|[u o'|u o' r] h IH]; intros o H; cbn in *; [discriminate| |]; destruct (Nat.eqb_spec u t); try discriminate; auto.
  left. congruence.
Qed.
Lemma reachP_calls : forall n s, reachP n s -> forall t o, In (ECall t o) (hist s) -> ok o = true.
Proof.
  intros n s H. induction H as [|s l s' Hr IH H Hl]; intros t o Hi; [contradiction|].
  destruct l as [u o'|u|u]; cbn in H; destruct (nth_error (thrs s) u) as [x|]; try discriminate.
  - unfold call, put in H. destruct (t_pc x); try discriminate. destruct (mode_eqb _ _); [|discriminate]. injection H as <-. destruct Hi as [Hi|Hi]; [|eauto]. injection Hi as -> ->. eapply Hl; reflexivity.
  - unfold run, ret, goto, put in H. destruct (t_pc x); repeat match type of H with context [match ?b with _ => _ end] => destruct b end; try discriminate; injection H as <-; cbn [hist app] in Hi;
      try (destruct Hi as [Hi|Hi]; [discriminate|]); eauto.
  - unfold time_out, goto, put in H. destruct (t_pc x); try discriminate. destruct (is_timed o0); try discriminate. injection H as <-. eauto.
Qed.

(** [s] at the time thread [t] is in a call *)
Definition Q (w : word) (u e nW nR qU qE : nat) : Prop :=
  (ok TimedLock = false -> nW = e + ew w + qE) /\
  (ok TimedLock = false -> ok LockUpgrade = false -> sw w > 0 -> ex w = true \/ ewb w = true) /\
  (ok TimedLock = false -> ok TimedLockShared = false -> ok UnlockUpgrade = false -> u + sw w + qU = nR + e + qE).

Definition QS (s : sys) : Prop := Q (wd s) (us s) (es s) (total cW (thrs s)) (total cR (thrs s)) (total dU (thrs s)) (total dE (thrs s)).

Lemma q_step : forall s t x y w u e p h,
  nth_error (thrs s) t = Some x ->
  (forall nW nR qU qE, Q (wd s) (us s) (es s) (cW x + nW) (cR x + nR) (dU x + qU) (dE x + qE) -> Q w u e (cW y + nW) (cR y + nR) (dU y + qU) (dE y + qE)) ->
  QS s -> QS (Sys w u e p (set_thr (thrs s) t y) h).
Proof.
  intros s t x y w u e p h Hx H HN. unfold QS in *. cbn [wd us es ps thrs].
  assert (G : forall f, exists n, total f (thrs s) = f x + n /\ total f (set_thr (thrs s) t y) = f y + n).
  { intros f. pose proof (total_set f (thrs s) t y Hx). pose proof (total_ge f (thrs s) t Hx). exists (total f (thrs s) - f x). lia. }
  destruct (G cW) as (nW & E5 & ->), (G cR) as (nR & E6 & ->), (G dU) as (qU & E7 & ->), (G dE) as (qE & E8 & ->).
  apply H. now rewrite E5, E6, E7, E8 in HN.
Qed.

Ltac qsolve := repeat match goal with
  | H : _ /\ _ |- _ => destruct H
  | H : ?a = ?b -> _, E : ?a = ?b |- _ => specialize (H E)
  end.

Lemma q_cas : forall o old new a m p' m' u e nW nR qU qE,
  body_of o old = BCas new a -> ok o = true ->
  (exists r, a = AReturn r) /\ p' = PIdle \/
   a = AWait /\ p' = PSleep o old \/
   (exists l, a = ARelease l /\ p' = PRel o l (KRet RDone)) \/
   a = AUpWait /\ p' = PUp ->
  let x := Thr (PCas o old) m in let y := Thr p' m' in
  Q old u e (cW x + nW) (cR x + nR) (dU x + qU) (dE x + qE) -> Q new u e (cW y + nW) (cR y + nR) (dU y + qU) (dE y + qE).
Proof.
  intros o old new a m p' m' u e nW nR qU qE Hb Hok Ha x y HN.
  pose proof sm_pos as SM. pose proof em_pos as EM.
  subst x y. destruct old as [c w x g v b]. unfold Q in *.
  destruct o; cbn [body_of] in Hb.
  all: destruct x, g, b; unf; bools; try discriminate; try (injection Hb as <- <-);
    try (injection Hb as <-); repeat match goal with H : _ \/ _ |- _ => destruct H | H : _ /\ _ |- _ => destruct H | H : exists _, _ |- _ => destruct H end;
    subst; try congruence.
  all: repeat match goal with H : ARelease _ = ARelease _ |- _ => injection H as <- end.
  all: cbn [mode_eqb b2n of_sem isU isE isP app is_writer negb sc sw ex up ew ewb] in *.
  all: split; [intros A1|split; [intros A1 A2 A3|intros A1 A2 A3]]; try congruence.
  all: repeat match goal with H : ?a = ?b -> _, E : ?a = ?b |- _ => specialize (H E) end.
  all: try lia; try (left; reflexivity); try (right; reflexivity); auto.
  all: try (match goal with H : _ > 0 -> _ |- _ => apply H; lia end).
Qed.

Lemma q_give : forall o old new must r m p' m' u e nW nR qU qE,
  give_body o old = GCas new must r -> is_timed o = true -> ok o = true ->
  must = true /\ p' = PRel o [(SU, 1)] (KRet (RBool r)) \/ must = false /\ p' = PIdle ->
  let x := Thr (PGive o old) m in let y := Thr p' m' in
  Q old u e (cW x + nW) (cR x + nR) (dU x + qU) (dE x + qE) -> Q new u e (cW y + nW) (cR y + nR) (dU y + qU) (dE y + qE).
Proof.
  intros o old new must r m p' m' u e nW nR qU qE Hb Ht Hok Ha x y HN.
  subst x y. destruct old as [c w x g v b]. unfold Q in *.
  destruct o; try discriminate Ht; cbn [give_body] in Hb.
  { split; [intros A1|split; [intros A1 A2 A3|intros A1 A2 A3]]; congruence. }
  destruct x, g, b; unf; bools; try discriminate; try (injection Hb as <- <- <-); destruct Ha as [[? ->]|[_ ->]]; try discriminate.
  all: cbn [mode_eqb b2n of_sem isU isE isP app is_writer negb sc sw ex up ew ewb] in *.
  all: split; [intros A1|split; [intros A1 A2 A3|intros A1 A2 A3]]; try congruence; destruct HN as (H1 & H2 & H3).
  all: repeat match goal with H : ?a = ?b -> _, E : ?a = ?b |- _ => specialize (H E) end.
  all: try lia; try (left; reflexivity); try (right; reflexivity); auto.
Qed.

Lemma QS_reach : forall n s, reachP n s -> QS s.
Proof.
  intros n s Hr. induction Hr as [|s l s' Hr IH H Hl].
  { unfold QS. rewrite !total_zero; try (intros t x H; apply nth_error_In in H; cbn in H; apply repeat_spec in H; subst x; reflexivity). unfold Q. cbn. repeat split; intros; lia. }
  pose proof (inv_reach (reachP_reach Hr)) as HI.
  destruct l as [t o|t|t]; cbn in H; destruct (nth_error (thrs s) t) as [x|] eqn:Hx; try discriminate.
  - unfold call, put in H. destruct x as [p m]. cbn [t_pc t_own] in H. destruct p; try discriminate. destruct (mode_eqb _ _); [|discriminate]. injection H as <-.
    refine (@q_step s t _ _ _ _ _ _ _ Hx _ IH). intros nW nR qU qE. unf. auto.
  - pose proof (i_thr HI t Hx) as Ht. destruct (i_hist HI t Hx) as [Hcl _].
    assert (Hok : forall o, call_of (t_pc x) = Some o -> ok o = true).
    { intros o E. rewrite E in Hcl. eapply reachP_calls; [exact Hr|apply calling_in; exact Hcl]. }
    unfold run, ret, goto, put in H. destruct x as [p m]. cbn [t_pc t_own] in *. destruct p as [|o|o old|o old|o old|o l k|]; try discriminate.
    + injection H as <-. refine (@q_step s t _ _ _ _ _ _ _ Hx _ IH). intros nW nR qU qE. unf. auto.
    + destruct (body_of o old) as [r|new a] eqn:Eb.
      * injection H as <-. refine (@q_step s t _ _ _ _ _ _ _ Hx _ IH). intros nW nR qU qE. unf. auto.
      * destruct (word_eqb (wd s) old) eqn:Ew.
        -- apply word_eqb_eq in Ew.
           assert (G : exists p' m' h, s' = Sys new (us s) (es s) (ps s) (set_thr (thrs s) t (Thr p' m')) h /\
             ((exists r, a = AReturn r) /\ p' = PIdle \/ a = AWait /\ p' = PSleep o old \/ (exists l, a = ARelease l /\ p' = PRel o l (KRet RDone)) \/ a = AUpWait /\ p' = PUp)).
           { destruct a as [[|[]|]| |l|]; injection H as <-; eexists _, _, _; (split; [reflexivity|]); eauto 6. }
           destruct G as (p' & m' & h & -> & Ha). refine (@q_step s t _ _ _ _ _ _ _ Hx _ IH). intros nW nR qU qE. rewrite Ew. refine (@q_cas _ _ _ _ _ _ _ _ _ _ _ _ _ Eb (Hok o eq_refl) Ha).
        -- injection H as <-. refine (@q_step s t _ _ _ _ _ _ _ Hx _ IH). intros nW nR qU qE. unf. auto.
    + cbn in Ht. destruct Ht as [Hw ->]. destruct (is_writer o) eqn:Ewr.
      * destruct (us s) as [|u] eqn:Eu; [discriminate|]. destruct (es s) as [|e] eqn:Ee; [discriminate|]. injection H as <-.
        refine (@q_step s t _ _ _ _ _ _ _ Hx _ IH). intros nW nR qU qE. rewrite Eu, Ee. unfold Q. unf. rewrite Ewr. cbn [b2n negb]. intros (H1 & H2 & H3).
        split; [intros A1; specialize (H1 A1); lia|split; [exact H2|intros A1 A2 A3; specialize (H3 A1 A2 A3); lia]].
      * destruct (us s) as [|u] eqn:Eu; [discriminate|]. injection H as <-.
        refine (@q_step s t _ _ _ _ _ _ _ Hx _ IH). intros nW nR qU qE. rewrite Eu. unfold Q. unf. rewrite Ewr. cbn [b2n negb]. intros (H1 & H2 & H3).
        split; [intros A1; specialize (H1 A1); lia|split; [exact H2|intros A1 A2 A3; specialize (H3 A1 A2 A3); lia]].
    + cbn in Ht. destruct Ht as [Hw ->]. specialize (Hok o eq_refl). destruct (give_body o old) as [r|new must r] eqn:Eb.
      * injection H as <-. refine (@q_step s t _ _ _ _ _ _ _ Hx _ IH). intros nW nR qU qE. unfold Q. unf. intros (H1 & H2 & H3).
        destruct o; try discriminate Hw; cbn [is_writer b2n negb] in *; (split; [intros A1; try congruence; specialize (H1 A1); lia|split; [exact H2|intros A1 A2 A3; congruence]]).
      * destruct (word_eqb (wd s) old) eqn:Ew.
        -- apply word_eqb_eq in Ew.
           assert (G : exists p' m' h, s' = Sys new (us s) (es s) (ps s) (set_thr (thrs s) t (Thr p' m')) h /\
             (must = true /\ p' = PRel o [(SU, 1)] (KRet (RBool r)) \/ must = false /\ p' = PIdle)).
           { destruct must; injection H as <-; eexists _, _, _; (split; [reflexivity|]); eauto 6. }
           destruct G as (p' & m' & h & -> & Ha). refine (@q_step s t _ _ _ _ _ _ _ Hx _ IH). intros nW nR qU qE. rewrite Ew. refine (@q_give _ _ _ _ _ _ _ _ _ _ _ _ _ _ Eb Hw Hok Ha).
        -- destruct must; injection H as <-; refine (@q_step s t _ _ _ _ _ _ _ Hx _ IH); intros nW nR qU qE; unfold Q; unf; intros (H1 & H2 & H3).
           ++ destruct (give_must _ _ Eb Hw) as [_ ->]. split; [intros A1; congruence|split; [intros A1; congruence|intros A1 A2 A3; congruence]].
           ++ auto.
    + destruct l as [|[[] n'] l]; [destruct k as [r|old]| | |]; injection H as <-; refine (@q_step s t _ _ _ _ _ _ _ Hx _ IH); intros nW nR qU qE; unfold Q; unf; intros (H1 & H2 & H3);
        (split; [intros A1; specialize (H1 A1); try destruct k; lia|split; [exact H2|intros A1 A2 A3; specialize (H3 A1 A2 A3); try destruct k; lia]]).
    + destruct (ps s) as [|p]; [discriminate|]. injection H as <-. refine (@q_step s t _ _ _ _ _ _ _ Hx _ IH). intros nW nR qU qE. unf. auto.
  - unfold time_out, goto, put in H. destruct x as [p m]. cbn [t_pc t_own] in H. destruct p; try discriminate. destruct (is_timed o); [|discriminate]. injection H as <-.
    refine (@q_step s t _ _ _ _ _ _ _ Hx _ IH). intros nW nR qU qE. unf. auto.
Qed.
End Plain.
