(** * The Windows shared_mutex: invariants *)
From Verif Require Export WS_Num.
Set Implicit Arguments.

(** ** History *)
Definition hold_of (m : mode) : hold := match m with MNone => HNone | MShared => HShared | MUpgrade | MPend => HUpgrade | MExcl => HExclusive end.
Definition call_of (p : pc) : option op :=
  match p with
  | PIdle => None
  | PRead o | PCas o _ | PSleep o _ | PGive o _ | PRel o _ _ => Some o
  | PUp => Some UnlockUpgradeAndLock
  end.
Definition hist_ok (h : list event) (t : nat) (x : thr) : Prop :=
  calling t h = call_of (t_pc x) /\ holds t h = match call_of (t_pc x) with None => hold_of (t_own x) | Some o => during o end.
Definition Hist_ok (s : sys) : Prop := forall t x, nth_error (thrs s) t = Some x -> hist_ok (hist s) t x.

Lemma hist_other : forall h t u ev x, (exists o, ev = ECall u o) \/ (exists o r, ev = ERet u o r) -> u <> t -> hist_ok h t x -> hist_ok (ev :: h) t x.
Proof.
  intros h t u ev x He Hne [H1 H2]. unfold hist_ok. destruct He as [[o ->]|(o & r & ->)]; cbn; destruct (Nat.eqb_spec u t); try congruence; auto.
Qed.

Record Inv (s : sys) : Prop := { i_num : Num s; i_thr : Thr_ok s; i_hist : Hist_ok s }.

Lemma inv_put : forall s t x y w u e p h,
  nth_error (thrs s) t = Some x -> Inv s -> thr_ok y ->
  (h = [] /\ call_of (t_pc y) = call_of (t_pc x) /\ (call_of (t_pc x) = None -> hold_of (t_own y) = hold_of (t_own x)) \/
   (exists o r, h = [ERet t o r] /\ t_pc y = PIdle /\ hold_of (t_own y) = if failed r then HNone else acquired o) \/
   (exists o, h = [ECall t o] /\ call_of (t_pc y) = Some o)) ->
  (forall nS nU nP nX nW nR qU qE qP nA,
     num (wd s) (us s) (es s) (ps s) (cS x + nS) (cU x + nU) (cP x + nP) (cX x + nX) (cW x + nW) (cR x + nR) (dU x + qU) (dE x + qE) (dP x + qP) (cA x + nA) ->
     num w u e p (cS y + nS) (cU y + nU) (cP y + nP) (cX y + nX) (cW y + nW) (cR y + nR) (dU y + qU) (dE y + qE) (dP y + qP) (cA y + nA)) ->
  Inv (Sys w u e p (set_thr (thrs s) t y) (h ++ hist s)).
Proof.
  intros s t x y w u e p h Hx [HN HT HH] Hy Hh Hn. constructor.
  - eapply num_step; eauto.
  - intros t' z Hz. cbn [thrs] in Hz. destruct (Nat.eq_dec t t') as [<-|Hne].
    + rewrite (nth_set_same _ _ _ Hx) in Hz. injection Hz as <-. exact Hy.
    + rewrite nth_set_other in Hz by exact Hne. eauto.
  - intros t' z Hz. cbn [thrs hist] in *. destruct (Nat.eq_dec t t') as [<-|Hne].
    + rewrite (nth_set_same _ _ _ Hx) in Hz. injection Hz as <-. destruct (HH t x Hx) as [A B].
      destruct Hh as [(-> & E1 & E2)|[(o & r & -> & E1 & E2)|(o & -> & E1)]]; cbn [app].
      * unfold hist_ok. rewrite E1. split; [exact A|]. rewrite B. destruct (call_of (t_pc x)); [reflexivity|]. symmetry. now apply E2.
      * unfold hist_ok. rewrite E1. cbn. rewrite Nat.eqb_refl. split; [reflexivity|]. now rewrite E2.
      * unfold hist_ok. rewrite E1. cbn. rewrite Nat.eqb_refl. split; reflexivity.
    + rewrite nth_set_other in Hz by exact Hne. pose proof (HH t' z Hz) as Q.
      destruct Hh as [(-> & _)|[(o & r & -> & _)|(o & -> & _)]]; cbn [app]; [exact Q|apply hist_other with (u := t)|apply hist_other with (u := t)]; eauto.
Qed.

Lemma inv_init : forall n, Inv (init n).
Proof.
  intros n. assert (G : forall t x, nth_error (thrs (init n)) t = Some x -> x = Thr PIdle MNone).
  { intros t x H. apply nth_error_In in H. now apply repeat_spec in H. }
  constructor.
  - unfold Num. rewrite !total_zero; try (intros t x H; rewrite (G t x H); reflexivity).
    cbn. constructor; cbn; intros; try discriminate; try lia; repeat split; lia.
  - intros t x H. rewrite (G t x H). cbn. discriminate.
  - intros t x H. rewrite (G t x H). split; reflexivity.
Qed.

Lemma gives_hold : forall o, hold_of (gives o) = acquired o. Proof. now intros []. Qed.
Lemma gives_np : forall o, gives o <> MPend. Proof. now intros []. Qed.

Lemma inv_call : forall s t x o s', nth_error (thrs s) t = Some x -> call s t x o = Some s' -> Inv s -> Inv s'.
Proof.
  intros s t x o s' Hx H HI. unfold call in H. destruct x as [p m]. cbn [t_pc t_own] in H. destruct p; try discriminate.
  destruct (mode_eqb m (needs o)) eqn:E; [|discriminate]. injection H as <-.
  refine (@inv_put s t _ (Thr (PRead o) m) _ _ _ _ [ECall t o] Hx HI _ _ _).
  - cbn. now destruct m, o.
  - right. right. exists o. split; reflexivity.
  - intros nS nU nP nX nW nR qU qE qP nA [K1 K2 K3 K4 K5 K6 K7 K8 K9 K10].
    destruct m; unf; constructor; auto; intros A B; specialize (K10 A B); lia.
Qed.

Lemma inv_timeout : forall s t x s', nth_error (thrs s) t = Some x -> time_out s t x = Some s' -> Inv s -> Inv s'.
Proof.
  intros s t x s' Hx H HI. unfold time_out in H. pose proof (i_thr HI t Hx) as Ht. destruct x as [p m]. cbn [t_pc t_own] in *. destruct p; try discriminate.
  destruct (is_timed o) eqn:E; [|discriminate]. injection H as <-. cbn in Ht. destruct Ht as [_ ->].
  refine (@inv_put s t _ (Thr (PGive o old) MNone) _ _ _ _ [] Hx HI _ _ _).
  - cbn. auto.
  - left. cbn. repeat split; discriminate.
  - intros nS nU nP nX nW nR qU qE qP nA [K1 K2 K3 K4 K5 K6 K7 K8 K9 K10]. destruct o; try discriminate E; unf; constructor; auto; intros A B; specialize (K10 A B); lia.
Qed.

Lemma body_return : forall o w r, body_of o w = BReturn r -> failed r = true /\ needs o = MNone.
Proof.
  intros [] w r; cbn [body_of]; repeat match goal with |- context [if ?b then _ else _] => destruct b end; intros H; try discriminate; injection H as <-; split; reflexivity.
Qed.
Lemma body_wait : forall o w new, body_of o w = BCas new AWait -> waits o = true /\ needs o = MNone.
Proof.
  intros [] w n; cbn [body_of]; repeat match goal with |- context [if ?b then _ else _] => destruct b end; intros H; try discriminate; try (injection H; discriminate); split; reflexivity.
Qed.
Lemma body_up : forall o w new, body_of o w = BCas new AUpWait -> o = UnlockUpgradeAndLock.
Proof.
  intros [] w n; cbn [body_of]; repeat match goal with |- context [if ?b then _ else _] => destruct b end; intros H; try discriminate; try (injection H; discriminate); reflexivity.
Qed.
Lemma body_ret : forall o w new r, body_of o w = BCas new (AReturn r) -> (r = RBool false -> new = w /\ needs o = MNone) /\ (r <> RBool false -> failed r = false).
Proof.
  intros [] w n r; cbn [body_of]; repeat match goal with |- context [if ?b then _ else _] => destruct b end; intros H; try discriminate; injection H as <- <-;
    (split; [intros Q; try discriminate Q; auto|intros Q; try reflexivity; congruence]).
Qed.
Lemma body_release : forall o w new l, body_of o w = BCas new (ARelease l) -> needs o <> MNone.
Proof.
  intros [] w n l; cbn [body_of]; repeat match goal with |- context [if ?b then _ else _] => destruct b end; intros H; try discriminate; try (injection H; discriminate).
Qed.
Lemma give_return : forall o w r, give_body o w = GReturn r -> is_timed o = true -> failed r = true.
Proof.
  intros [] w r H Ht; try discriminate Ht; cbn [give_body] in H; repeat match type of H with context [if ?b then _ else _] => destruct b end; try discriminate; injection H as <-; reflexivity.
Qed.
Lemma give_must : forall o w new r, give_body o w = GCas new true r -> is_timed o = true -> r = false /\ o = TimedLock.
Proof.
  intros [] w n r H Ht; try discriminate Ht; cbn [give_body] in H; repeat match type of H with context [if ?b then _ else _] => destruct b end; try discriminate; injection H as <- <-; split; reflexivity.
Qed.

Ltac weaken := intros nS nU nP nX nW nR qU qE qP nA [K1 K2 K3 K4 K5 K6 K7 K8 K9 K10].

Lemma inv_run : forall s t x s', nth_error (thrs s) t = Some x -> run s t x = Some s' -> Inv s -> Inv s'.
Proof.
  intros s t x s' Hx H HI. unfold run, ret, goto, put in H. pose proof (i_thr HI t Hx) as Ht. destruct x as [p m]. cbn [t_pc t_own] in *. destruct p; try discriminate.
  - (* PRead *) injection H as <-. cbn in Ht. subst m.
    refine (@inv_put s t _ (Thr (PCas o (wd s)) _) _ _ _ _ [] Hx HI _ _ _); [reflexivity|left; cbn; repeat split; discriminate|].
    weaken. unf. constructor; auto. intros A B. specialize (K10 A B). unfold free in A. unfold pos in A. rewrite A. destruct (is_writer o); cbn [b2n andb] in *; lia.
  - (* PCas *) cbn in Ht. destruct (body_of o old) as [r|new a] eqn:Eb.
    + injection H as <-. destruct (body_return _ _ Eb) as [E1 E2]. rewrite E2 in Ht. subst m.
      refine (@inv_put s t _ (Thr PIdle MNone) _ _ _ _ [ERet t o r] Hx HI _ _ _); [discriminate|right; left; exists o, r; rewrite E1; auto|].
      weaken.
      assert (free old = true -> is_writer o = false) as Fr.
      { intros F. clear - Eb F. unfold free in F. destruct o; try reflexivity; cbn [body_of] in Eb; destruct (pos (sc old)), (ex old); cbn [negb andb orb] in *; try discriminate. }
      unf. constructor; auto. intros A B. specialize (K10 A B). destruct (is_writer o); cbn [andb b2n] in *; [|lia].
      unfold free, pos in Fr. destruct (negb (negb (sc old =? 0)) && negb (ex old)); [discriminate (Fr eq_refl)|]. cbn [b2n] in K10. lia.
    + destruct (word_eqb (wd s) old) eqn:Ew.
      * apply word_eqb_eq in Ew. destruct a as [r| |l|].
        -- assert (Er : r = RBool false \/ r <> RBool false) by (destruct r as [|[]|]; auto; right; discriminate). destruct (body_ret _ _ Eb) as [Q1 Q2].
           destruct Er as [->|Hr].
           ++ injection H as <-. destruct (Q1 eq_refl) as [_ Q]. assert (Ht' : m = MNone) by congruence.
              refine (@inv_put s t _ (Thr PIdle m) _ _ _ _ [ERet t o _] Hx HI _ _ _); [rewrite Ht'; discriminate|right; left; exists o, (RBool false); rewrite Ht'; auto|].
              intros. rewrite Ew in *. eapply num_cas; eauto.
           ++ assert (Hs : Some s' = Some (Sys new (us s) (es s) (ps s) (set_thr (thrs s) t (Thr PIdle (gives o))) ([ERet t o r] ++ hist s))) by (rewrite <- H; destruct r as [|[]|]; congruence).
              injection Hs as ->.
              refine (@inv_put s t _ (Thr PIdle (gives o)) _ _ _ _ [ERet t o r] Hx HI _ _ _); [apply gives_np|right; left; exists o, r; rewrite (Q2 Hr); split; [reflexivity|split; [reflexivity|apply gives_hold]]|].
              intros. rewrite Ew in *. eapply num_cas; eauto. right. left. eauto.
        -- injection H as <-. destruct (body_wait _ _ Eb) as [Q1 Q2].
           refine (@inv_put s t _ (Thr (PSleep o old) m) _ _ _ _ [] Hx HI _ _ _); [cbn; rewrite Ht; auto|left; cbn; repeat split; discriminate|].
           intros. rewrite Ew in *. eapply num_cas; eauto. right. right. left. auto.
        -- injection H as <-.
           refine (@inv_put s t _ (Thr (PRel o l (KRet RDone)) (gives o)) _ _ _ _ [] Hx HI _ _ _); [cbn; split; [eapply body_release; eauto|reflexivity]|left; cbn; repeat split; discriminate|].
           intros. rewrite Ew in *. eapply num_cas; eauto. right. right. right. left. eauto.
        -- injection H as <-. pose proof (body_up _ _ Eb). subst o.
           refine (@inv_put s t _ (Thr PUp MPend) _ _ _ _ [] Hx HI _ _ _); [reflexivity|left; cbn; repeat split; discriminate|].
           intros. rewrite Ew in *. eapply num_cas; eauto. right. right. right. right. auto.
      * injection H as <-.
        refine (@inv_put s t _ (Thr (PCas o (wd s)) m) _ _ _ _ [] Hx HI _ _ _); [exact Ht|left; cbn; repeat split; discriminate|].
        weaken. unf. constructor; auto. intros A B. specialize (K10 A B). unfold free, pos in A. rewrite A. destruct (is_writer o); cbn [b2n andb] in *; lia.
  - (* PSleep *) cbn in Ht. destruct Ht as [Hw ->]. destruct (is_writer o) eqn:Ewr.
    + destruct (us s) as [|u] eqn:Eu; [discriminate|]. destruct (es s) as [|e] eqn:Ee; [discriminate|]. injection H as <-.
      refine (@inv_put s t _ (Thr (PRead o) MNone) _ _ _ _ [] Hx HI _ _ _); [now destruct o|left; cbn; repeat split; discriminate|].
      rewrite Eu, Ee. weaken. unf. rewrite Ewr in *. cbn [b2n negb] in *. constructor; auto; try lia.
    + destruct (us s) as [|u] eqn:Eu; [discriminate|]. injection H as <-.
      refine (@inv_put s t _ (Thr (PRead o) MNone) _ _ _ _ [] Hx HI _ _ _); [now destruct o|left; cbn; repeat split; discriminate|].
      rewrite Eu. weaken. unf. rewrite Ewr in *. cbn [b2n negb] in *. constructor; auto; try lia.
  - (* PGive *) cbn in Ht. destruct Ht as [Hw ->]. destruct (give_body o old) as [r|new must r] eqn:Eb.
    + injection H as <-. pose proof (give_return _ _ Eb Hw) as Hf.
      refine (@inv_put s t _ (Thr PIdle MNone) _ _ _ _ [ERet t o r] Hx HI _ _ _); [discriminate|right; left; exists o, r; rewrite Hf; auto|].
      assert (is_writer o = false) as Q. { destruct o; try reflexivity; try discriminate Hw. cbn [give_body] in Eb. repeat match type of Eb with context [if ?b then _ else _] => destruct b end; discriminate. }
      weaken. unf. rewrite Q in *. cbn [b2n negb] in *. constructor; auto. lia.
    + destruct (word_eqb (wd s) old) eqn:Ew; destruct must.
      * apply word_eqb_eq in Ew. injection H as <-. destruct (give_must _ _ Eb Hw) as [-> ->].
        refine (@inv_put s t _ (Thr (PRel TimedLock [(SU,1)] (KRet (RBool false))) MNone) _ _ _ _ [] Hx HI _ _ _); [cbn; auto|left; cbn; repeat split; discriminate|].
        intros. rewrite Ew in *. eapply num_give; eauto.
      * apply word_eqb_eq in Ew. injection H as <-.
        refine (@inv_put s t _ (Thr PIdle (if r then gives o else MNone)) _ _ _ _ [ERet t o (RBool r)] Hx HI _ _ _).
        -- destruct r; [apply gives_np|discriminate].
        -- right. left. exists o, (RBool r). split; [reflexivity|split; [reflexivity|]]. destruct r; cbn; [apply gives_hold|reflexivity].
        -- intros. rewrite Ew in *. eapply num_give; eauto.
      * injection H as <-. destruct (give_must _ _ Eb Hw) as [-> ->].
        refine (@inv_put s t _ (Thr (PRel TimedLock [(SU,1)] (KGive (wd s))) MNone) _ _ _ _ [] Hx HI _ _ _); [cbn; auto|left; cbn; repeat split; discriminate|].
        weaken. unf. constructor; auto; try lia.
      * injection H as <-.
        refine (@inv_put s t _ (Thr (PGive o (wd s)) MNone) _ _ _ _ [] Hx HI _ _ _); [cbn; auto|left; cbn; repeat split; discriminate|].
        weaken. unf. constructor; auto; try lia.
  - (* PRel *) destruct l as [|[[] n] l].
    + destruct k as [r|old].
      * injection H as <-. cbn in Ht. destruct Ht as [_ ->].
        refine (@inv_put s t _ (Thr PIdle _) _ _ _ _ [ERet t o r] Hx HI _ _ _); [destruct (failed r); [discriminate|apply gives_np]| |].
        -- right. left. exists o, r. split; [reflexivity|split; [reflexivity|]]. cbn [t_own]. destruct (failed r); [reflexivity|apply gives_hold].
        -- weaken. destruct (failed r); unf; constructor; auto.
      * injection H as <-. cbn in Ht.
        refine (@inv_put s t _ (Thr (PGive o old) m) _ _ _ _ [] Hx HI _ _ _); [exact Ht|left; cbn; repeat split; discriminate|].
        weaken. unf. constructor; auto.
    + injection H as <-. refine (@inv_put s t _ (Thr (PRel o l k) m) _ _ _ _ [] Hx HI _ _ _); [exact Ht|left; cbn; repeat split; discriminate|].
      weaken. unf. destruct k; constructor; auto; try lia.
    + injection H as <-. refine (@inv_put s t _ (Thr (PRel o l k) m) _ _ _ _ [] Hx HI _ _ _); [exact Ht|left; cbn; repeat split; discriminate|].
      weaken. unf. destruct k; constructor; auto; try lia; intros A B; specialize (K10 A B); lia.
    + injection H as <-. refine (@inv_put s t _ (Thr (PRel o l k) m) _ _ _ _ [] Hx HI _ _ _); [exact Ht|left; cbn; repeat split; discriminate|].
      weaken. unf. destruct k; constructor; auto; destruct (ex (wd s)), (up (wd s)); try contradiction; repeat split; lia.
  - (* PUp *) destruct (ps s) as [|p] eqn:Ep; [discriminate|]. injection H as <-. cbn in Ht. subst m.
    refine (@inv_put s t _ (Thr PIdle MExcl) _ _ _ _ [ERet t _ RDone] Hx HI _ _ _); [discriminate|right; left; eexists _, _; split; [reflexivity|]; split; reflexivity|].
    rewrite Ep. weaken. unf. constructor; auto; try lia. destruct (ex (wd s)), (up (wd s)); try contradiction; lia.
Qed.

Theorem inv_reach : forall n s, reach n s -> Inv s.
Proof.
  intros n s Hr. induction Hr as [|s l s' Hr IH H]; [apply inv_init|]. destruct l as [t o|t|t]; cbn in H; destruct (nth_error (thrs s) t) as [x|] eqn:Hx; try discriminate.
  - eapply inv_call; eauto.
  - eapply inv_run; eauto.
  - eapply inv_timeout; eauto.
Qed.
