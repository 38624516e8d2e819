(** * The Windows shared_mutex under release/acquire memory: no lost wake-ups (proofs) *)
From Verif Require Import WS_Errors XV_Model XV_Spec XV_Base XV_Proofs XV_Try.

(** Writers that will lock the mutex, or wait for it again with an exchange. *)
Definition cB (x : thr) := match t_pc x with PRead o | PCas o _ | PGive o _ | PRel o _ (KGive _) => b2n (is_writer o) | _ => 0 end.
Definition NAct (b : sys) : Prop :=
  free (wd b) = true -> ew (wd b) > 0 -> es b + total dE (thrs b) + total cB (thrs b) > 0.

Lemma na_keep : forall b t x y w u e p h, NAct b -> nth_error (thrs b) t = Some x ->
  (free w = true -> ew w > 0 -> e + dE y >= 1 \/ (free (wd b) = true /\ ew (wd b) > 0 /\ es b + dE x + cB x <= e + dE y + cB y)) ->
  NAct (Sys w u e p (set_thr (thrs b) t y) h).
Proof.
  intros b t x y w u e p h N Hx H F E. cbn [wd es thrs] in *. pose proof (total_set dE (thrs b) t y Hx) as Q1. pose proof (total_set cB (thrs b) t y Hx) as Q2.
  pose proof (total_ge dE (thrs b) t Hx) as G1. pose proof (total_ge cB (thrs b) t Hx) as G2.
  destruct (H F E) as [A|(A & B & C)]; [lia|]. specialize (N A B). lia.
Qed.
Lemma pos_ew : forall n, pos n = true <-> n > 0.
Proof. intros n. unfold pos. destruct n; cbn; split; intros; try lia; try discriminate; auto. Qed.
Lemma rel_dE : forall o old k m, ew old > 0 -> dE (Thr (PRel o (release_waiters old) k) m) >= 1.
Proof. intros o old k m H. unfold dE, rels, release_waiters. cbn [t_pc]. apply pos_ew in H. rewrite H. cbn. lia. Qed.
Lemma unblock_ew : forall w, ew (unblock w) > 0 -> ew w > 0.
Proof. intros w. unfold unblock, pos. destruct (ew w) eqn:E; cbn; lia. Qed.
Lemma unblock_ew' : forall w, ew (no_shared_waiting (unblock w)) > 0 -> ew w > 0.
Proof. intros w H. apply unblock_ew. exact H. Qed.
Lemma free_inv : forall w, free w = true -> sc w = 0 /\ ex w = false.
Proof. intros w. unfold free, pos. destruct (sc w), (ex w); cbn; intros; try discriminate; auto. Qed.

(** A compare-exchange that succeeds. *)
Lemma body_act : forall o old new a, body_of o old = BCas new a -> free new = true -> ew new > 0 ->
  (exists l, a = ARelease l /\ forall k m, dE (Thr (PRel o l k) m) >= 1) \/
  (free old = true /\ ew old > 0 /\ is_writer o = false /\ forall l, a <> ARelease l).
Proof.
  intros o old new a H F E. apply free_inv in F. destruct F as [F1 F2].
  destruct o; cbn [body_of] in H;
    repeat match type of H with (if ?b then _ else _) = _ => destruct b eqn:? end; try discriminate; injection H as <- <-;
    cbn [sc sw ex up ew ewb] in *; try discriminate;
    try (match goal with K : (_ =? 0) = false |- _ => apply Nat.eqb_neq in K; contradiction end);
    try (left; eexists; split; [reflexivity|]; intros; apply rel_dE; first [exact (unblock_ew' _ E)|exact (unblock_ew _ E)|exact E]; fail);
    try (right; unfold free, pos; rewrite F1, F2; cbn; repeat split; auto; discriminate).
  - match goal with K : (_ || _) = true |- _ => rewrite F1, F2 in K; cbn in K; discriminate end.
  - match goal with K : (_ || _) = true |- _ => rewrite F1, F2 in K; cbn in K; discriminate end.
Qed.
Lemma give_act : forall o old new must r, is_timed o = true -> give_body o old = GCas new must r -> free new = true -> ew new > 0 ->
  free old = true /\ ew old > 0 /\ is_writer o = false /\ must = false.
Proof.
  intros o old new must r T H F E. apply free_inv in F. destruct F as [F1 F2].
  destruct o; try discriminate T; cbn [give_body] in H;
    repeat match type of H with (if ?b then _ else _) = _ => destruct b eqn:? | (let n := _ in _) = _ => cbv zeta in H end; try discriminate; injection H as <- <- <-;
    cbn [sc sw ex up ew ewb] in *; try discriminate;
    try (match goal with K : (_ =? 0) = false |- _ => apply Nat.eqb_neq in K; contradiction end);
    try (match goal with K : (_ || _) = true |- _ => rewrite F1, F2 in K; cbn in K; discriminate end);
    try (unfold free, pos; rewrite F1, F2; cbn; repeat split; auto; discriminate).
Qed.
Lemma body_throw : forall o old r, body_of o old = BReturn r -> is_writer o = true -> r = RThrow.
Proof.
  intros [] old r H W; try discriminate W; cbn [body_of] in H; repeat match type of H with (if ?b then _ else _) = _ => destruct b end; try discriminate; now injection H as <-.
Qed.
Lemma give_ret : forall o old r, is_timed o = true -> give_body o old = GReturn r -> is_writer o = false.
Proof.
  intros [] old r T H; try discriminate T; cbn [give_body] in H; repeat match type of H with (if ?b then _ else _) = _ => destruct b | (let n := _ in _) = _ => cbv zeta in H end; try discriminate; reflexivity.
Qed.
Lemma na_run : forall b t x b', NAct b -> nth_error (thrs b) t = Some x -> thr_ok x -> run b t x = Some b' -> nothrow (hist b') -> NAct b'.
Proof.
  intros b t x b' N Hx Ht H Q. unfold run, goto, ret, put in H. destruct x as [p m]. unfold thr_ok in Ht. cbn [t_pc t_own] in *.
  destruct p as [|o|o old|o old|o old|o l k|]; try discriminate.
  - injection H as <-. eapply na_keep; [exact N|exact Hx|]. intros F E. right. repeat split; auto; cbn; lia.
  - destruct (body_of o old) as [r|new a] eqn:Eb.
    + injection H as <-. eapply na_keep; [exact N|exact Hx|]. intros F E. right. repeat split; auto. unfold cB, dE. cbn.
      destruct (is_writer o) eqn:W; cbn; [|lia]. pose proof (body_throw _ _ _ Eb W). subst r. exfalso. apply (Q t o). now left.
    + destruct (word_eqb (wd b) old) eqn:Ew.
      * apply word_eqb_eq in Ew. pose proof (body_act _ _ _ _ Eb) as B. rewrite <- Ew in B.
        destruct a as [r| |l|].
        -- assert (H' : exists y h, b' = Sys new (us b) (es b) (ps b) (set_thr (thrs b) t (Thr PIdle y)) h) by (destruct r as [|[]|]; injection H as <-; eauto).
           destruct H' as (y & h & ->). eapply na_keep; [exact N|exact Hx|]. intros F E. destruct (B F E) as [(l & El & _)|(B1 & B2 & B3 & _)]; [discriminate|].
           right. repeat split; auto. unfold cB, dE. cbn. rewrite B3. cbn. lia.
        -- injection H as <-. eapply na_keep; [exact N|exact Hx|]. intros F E. destruct (B F E) as [(l & El & _)|(B1 & B2 & B3 & _)]; [discriminate|].
           right. repeat split; auto. unfold cB, dE. cbn. rewrite B3. cbn. lia.
        -- injection H as <-. eapply na_keep; [exact N|exact Hx|]. intros F E. destruct (B F E) as [(l' & El & D)|(_ & _ & _ & B4)]; [|now destruct (B4 l)].
           injection El as <-. left. specialize (D (KRet RDone) (gives o)). lia.
        -- injection H as <-. eapply na_keep; [exact N|exact Hx|]. intros F E. destruct (B F E) as [(l & El & _)|(B1 & B2 & B3 & _)]; [discriminate|].
           right. repeat split; auto. unfold cB, dE. cbn. rewrite B3. cbn. lia.
      * injection H as <-. eapply na_keep; [exact N|exact Hx|]. intros F E. right. repeat split; auto; cbn; lia.
  - destruct (is_writer o) eqn:W.
    + destruct (us b); [discriminate|]. destruct (es b) eqn:Ee; [discriminate|]. injection H as <-. eapply na_keep; [exact N|exact Hx|]. intros F E. right. repeat split; auto. rewrite Ee. unfold cB, dE. cbn. rewrite W. cbn. lia.
    + destruct (us b); [discriminate|]. injection H as <-. eapply na_keep; [exact N|exact Hx|]. intros F E. right. repeat split; auto. unfold cB, dE. cbn. lia.
  - destruct Ht as [T _]. destruct (give_body o old) as [r|new must r] eqn:Eb.
    + pose proof (give_ret _ _ _ T Eb) as W. injection H as <-. eapply na_keep; [exact N|exact Hx|]. intros F E. right. repeat split; auto. unfold cB, dE. cbn. rewrite W. cbn. lia.
    + destruct (word_eqb (wd b) old) eqn:Ew.
      * apply word_eqb_eq in Ew. pose proof (give_act _ _ _ _ _ T Eb) as B. rewrite <- Ew in B. destruct must; injection H as <-; (eapply na_keep; [exact N|exact Hx|]; intros F E; destruct (B F E) as (B1 & B2 & B3 & B4); try discriminate).
        right. repeat split; auto. unfold cB, dE. cbn. rewrite B3. cbn. lia.
      * destruct must; injection H as <-; (eapply na_keep; [exact N|exact Hx|]; intros F E; right; repeat split; auto; unfold cB, dE; cbn; lia).
  - destruct l as [|[[] n] l]; [destruct k|..]; injection H as <-; (eapply na_keep; [exact N|exact Hx|]; intros F E; right; repeat split; auto; unfold cB, dE; cbn; destruct (is_writer o); cbn; try (destruct k; cbn); lia).
  - destruct (ps b); [discriminate|]. injection H as <-. eapply na_keep; [exact N|exact Hx|]. intros F E. right. repeat split; auto.
Qed.
Lemma na_stale : forall b t x w b', NAct b -> nth_error (thrs b) t = Some x ->
  uses (t_pc x) = ULoad \/ (exists old, uses (t_pc x) = UCas old /\ word_eqb w old = false) ->
  run (with_wd b w) t x = Some b' -> NAct (with_wd b' (wd b)).
Proof.
  intros b t x w b' N Hx U H. unfold run, goto, put in H. cbn [with_wd wd us es ps thrs hist app] in H.
  destruct x as [p m]. cbn [t_pc t_own] in *. destruct p as [|o|o old|o old|o old|o l k|]; cbn [uses] in U;
    try (destruct U as [U|(old' & U & W)]; discriminate).
  - injection H as <-. unfold with_wd. cbn [us es ps thrs hist]. eapply na_keep; [exact N|exact Hx|]. intros F E. right. repeat split; auto; cbn; lia.
  - destruct (body_of o old) as [r|new a]; [destruct U as [U|(old' & U & W)]; discriminate|].
    destruct U as [U|(old' & U & W)]; [discriminate|]. injection U as <-. rewrite W in H.
    injection H as <-. unfold with_wd. cbn [us es ps thrs hist]. eapply na_keep; [exact N|exact Hx|]. intros F E. right. repeat split; auto; cbn; lia.
  - destruct (give_body o old) as [r|new must r]; [destruct U as [U|(old' & U & W)]; discriminate|].
    destruct U as [U|(old' & U & W)]; [discriminate|]. injection U as <-. rewrite W in H.
    destruct must; injection H as <-; unfold with_wd; cbn [us es ps thrs hist]; (eapply na_keep; [exact N|exact Hx|]; intros F E; right; repeat split; auto; cbn; lia).
  - destruct l as [|[[] n] l]; cbn in U; destruct U as [U|(old' & U & W)]; discriminate.
Qed.
Lemma nothrow_cons : forall e h, nothrow (e :: h) -> nothrow h.
Proof. intros e h H u o K. apply (H u o). now right. Qed.
Lemma nothrow_exec : forall b l b', exec b l = Some b' -> nothrow (hist b') -> nothrow (hist b).
Proof. intros b l b' H Q. destruct (exec_hist _ _ H) as (t & _ & [E|(e & E & _)]); rewrite E in Q; [auto|eapply nothrow_cons; eauto]. Qed.
Lemma thr_base : forall b t x, InvR b -> nth_error (thrs b) t = Some x -> thr_ok x /\ hist_ok (hist b) t x.
Proof.
  intros b t x I Hx. assert (L : t < length (thrs b)) by (apply nth_error_Some; congruence).
  assert (Hx' : nth_error (thrs (dummy b)) t = Some x) by (cbn [dummy thrs]; rewrite nth_error_app1; auto).
  split; [exact (i_thr I t Hx')|]. destruct (i_hist I t Hx') as [A B]. cbn [dummy hist] in A, B. rewrite calling_app in A by lia. rewrite holds_app in B by lia. split; auto.
Qed.
Lemma na_reaches : forall n s, reaches n s -> nothrow (hist (base s)) -> NAct (base s).
Proof.
  intros n s R. induction R as [|s s' R IH St]; intros Q; [intros _ E; cbn in E; lia|].
  pose proof (i_base _ (INV_reaches _ _ R)) as I.
  assert (X : forall t b', exec (base s) (LRun t) = Some b' -> nothrow (hist b') -> NAct b').
  { intros t b' E Q'. pose proof (IH (nothrow_exec _ _ _ E Q')) as N. destruct (@exec_inv _ _ _ E) as (x & Hx & Rn). eapply na_run; eauto. apply (thr_base _ _ _ I Hx). }
  destruct St; cbn [base] in *; auto.
  - pose proof (IH (nothrow_exec _ _ _ H Q)) as N. cbn in H. destruct (nth_error (thrs (base s)) t) as [x|] eqn:Hx; [|discriminate]. unfold call, put in H.
    destruct x as [p m]. cbn [t_pc t_own] in *. destruct p; try discriminate. destruct (mode_eqb m (needs o)); [|discriminate]. injection H as <-.
    eapply na_keep; [exact N|exact Hx|]. intros F E. right. repeat split; auto. unfold cB, dE. cbn. lia.
  - pose proof (IH (nothrow_exec _ _ _ H Q)) as N. cbn in H. destruct (nth_error (thrs (base s)) t) as [x|] eqn:Hx; [|discriminate]. unfold time_out, goto, put in H.
    destruct x as [p m]. cbn [t_pc t_own] in *. destruct p; try discriminate. destruct (is_timed o); [|discriminate]. injection H as <-.
    eapply na_keep; [exact N|exact Hx|]. intros F E. right. repeat split; auto. unfold cB, dE. cbn. lia.
  - eauto.
  - pose proof (IH (nothrow_exec _ _ _ H2 Q)) as N. destruct (@exec_inv _ _ _ H2) as (x' & Hx' & Rn). cbn [with_wd thrs] in Hx'. rewrite H in Hx'. injection Hx' as <-.
    exact (na_stale _ _ _ _ _ N H (or_introl H0) Rn).
  - pose proof (IH (nothrow_exec _ _ _ H3 Q)) as N. destruct (@exec_inv _ _ _ H3) as (x' & Hx' & Rn). cbn [with_wd thrs] in Hx'. rewrite H in Hx'. injection Hx' as <-.
    exact (na_stale _ _ _ _ _ N H (or_intror (ex_intro _ old (conj H0 H2))) Rn).
  - destruct (INV_reaches _ _ R) as [_ IG (m0 & q & EM & Ew & _) _ _]. destruct H1 as [Hm _]. rewrite EM in *. pose proof (@rmw_top _ _ _ IG Hm H3) as ->.
    rewrite Ew, with_wd_id in H4. eauto.
  - eauto.
  - eauto.
Qed.

(** ** At rest *)
Lemma runsR : forall b t x, nth_error (thrs b) t = Some x -> exec b (LRun t) = None ->
  t_pc x = PIdle \/ (exists o old, t_pc x = PSleep o old /\ (us b = 0 \/ is_writer o = true /\ es b = 0)) \/ t_pc x = PUp /\ ps b = 0.
Proof.
  intros s t x Hx H. cbn in H. rewrite Hx in H. unfold run, ret, goto, put in H. destruct (t_pc x) as [|o|o old|o old|o old|o l k|].
  - now left.
  - discriminate.
  - destruct (body_of o old) as [|w [[|[]|]| | |]]; try discriminate; destruct (word_eqb (wd s) old); discriminate.
  - right. left. exists o, old. split; [reflexivity|]. destruct (is_writer o), (us s), (es s); try discriminate; auto.
  - destruct (give_body o old) as [|w [] r]; try discriminate; destruct (word_eqb (wd s) old); discriminate.
  - destruct l as [|[[] n] l]; try discriminate; destruct k; discriminate.
  - right. right. destruct (ps s); [auto|discriminate].
Qed.
Lemma rest_zero : forall b f, at_rest b -> (forall p m, match p with PIdle | PUp | PSleep _ _ => True | _ => False end -> f (Thr p m) = 0) -> total f (thrs b) = 0.
Proof.
  intros s f Hr Hf. apply WS_Num.total_zero. intros t x Hx. destruct (runsR s t x Hx (Hr t)) as [E|[(o & old & E & _)|[E _]]]; destruct x as [p m]; cbn in E; subst p; apply Hf; exact I.
Qed.
Lemma idle_ownerR : forall b, at_rest b -> InvR b -> free (wd b) = false -> exists j, holds j (hist b) <> HNone /\ calling j (hist b) = None.
Proof.
  intros s Hr HI Hf. destruct (phase HI) as [K1 K2].
  assert (G : forall t x, nth_error (thrs s) t = Some x -> t_own x <> MNone -> t_own x <> MPend -> exists j, holds j (hist s) <> HNone /\ calling j (hist s) = None).
  { intros t x Hx Ho Hp. exists t. destruct (thr_base _ _ _ HI Hx) as [C [A B]]. unfold thr_ok in C.
    destruct (runsR s t x Hx (Hr t)) as [E|[(o & old & E & _)|[E _]]]; rewrite E in *.
    - split; [|exact A]. rewrite B. cbn. destruct (t_own x); try congruence; discriminate.
    - destruct C. congruence.
    - congruence. }
  assert (G2 : forall f, total f (thrs s) > 0 -> (forall x, f x > 0 -> t_own x <> MNone /\ t_own x <> MPend) -> exists j, holds j (hist s) <> HNone /\ calling j (hist s) = None).
  { intros f Hp Q. destruct (total_pos _ _ Hp) as (t & x & Hx & Hq). destruct (Q x Hq). eauto. }
  destruct (total cS (thrs s) + total cU (thrs s)) eqn:E.
  - unfold free in Hf. rewrite K1 in Hf. cbn in Hf. destruct (ex (wd s)) eqn:Ex; [|discriminate]. destruct (up (wd s)); [contradiction|].
    destruct K2 as (_ & K2 & K3).
    assert (Z : total dP (thrs s) = 0). { apply rest_zero; auto. intros [] m; try contradiction; reflexivity. }
    destruct (total cP (thrs s)) eqn:EP.
    + apply G2 with (f := cX); [lia|]. intros x. unfold cX. destruct (t_own x); cbn; intros; split; try discriminate; lia.
    + exfalso. destruct (@total_pos cP (thrs s)) as (t & x & Hx & Hq); [lia|].
      assert (Eo : t_own x = MPend). { unfold cP in Hq. destruct (t_own x); cbn in Hq; try lia; reflexivity. }
      destruct (thr_base _ _ _ HI Hx) as [C _]. unfold thr_ok in C. destruct (runsR s t x Hx (Hr t)) as [E1|[(o & old & E1 & _)|[E1 E2]]]; rewrite E1 in C; try congruence; [destruct C; congruence|].
      lia.
  - destruct (total cS (thrs s)) eqn:ES.
    + apply G2 with (f := cU); [lia|]. intros x. unfold cU. destruct (t_own x); cbn; intros; split; try discriminate; lia.
    + apply G2 with (f := cS); [lia|]. intros x. unfold cS. destruct (t_own x); cbn; intros; split; try discriminate; lia.
Qed.
Lemma no_lost : forall n s t, reaches n s -> nothrow (hist (base s)) -> at_rest (base s) -> blocked (base s) t ->
  exists j, j <> t /\ holds j (hist (base s)) <> HNone /\ calling j (hist (base s)) = None.
Proof.
  intros n s0 t R Q Ha [Hc _]. pose proof (i_base _ (INV_reaches _ _ R)) as HI. pose proof (na_reaches _ _ R Q) as K10. destruct (ran_reaches _ _ R) as [Le Rg].
  set (s := base s0) in *.
  assert (G : exists j, holds j (hist s) <> HNone /\ calling j (hist s) = None).
  2: { destruct G as (j & H1 & H2). exists j. split; [intros ->; congruence|auto]. }
  assert (Hx : exists x, nth_error (thrs s) t = Some x).
  { destruct (nth_error (thrs s) t) as [x|] eqn:E; [eauto|]. exfalso. apply nth_error_None in E.
    destruct (@outside t (hist s)) as [_ A]; [|auto]. intros e He Eq. specialize (Rg e He). lia. }
  destruct Hx as [x Hx].
  destruct (free (wd s)) eqn:Hf; [exfalso|now apply idle_ownerR].
  destruct (phase HI) as [K1 K2].
  pose proof (i_num HI) as [_ _ _ _ _ K6 K7 K8 K9 _]. cbn [dummy thrs wd us es ps] in *. rewrite !total_app in *. cbn [total extra] in *.
  change (cW extra) with 0 in *. change (cR extra) with 0 in *. change (dU extra) with 0 in *. change (dE extra) with 0 in *.
  specialize (K9 Hf). destruct K9 as [K9 _]. specialize (K10 Hf).
  assert (Z1 : total dU (thrs s) = 0). { apply rest_zero; auto. intros [] m; try contradiction; reflexivity. }
  assert (Z2 : total dE (thrs s) = 0). { apply rest_zero; auto. intros [] m; try contradiction; reflexivity. }
  assert (Z3 : total cB (thrs s) = 0). { apply rest_zero; auto. intros [] m; try contradiction; reflexivity. }
  destruct (thr_base _ _ _ HI Hx) as [C [A _]]. destruct (runsR s t x Hx (Ha t)) as [E|[(o & old & E & Ez)|[E Ez]]].
  - rewrite E in A. cbn in A. congruence.
  - pose proof (total_ge cW (thrs s) t Hx) as G1. pose proof (total_ge cR (thrs s) t Hx) as G2. unfold cW in G1 at 1. unfold cR in G2 at 1. rewrite E in G1, G2.
    destruct (is_writer o); cbn [b2n negb] in *.
    + destruct Ez as [Ez|[_ Ez]]; rewrite Ez in *; destruct (ew (wd s)); lia.
    + destruct Ez as [Ez|[? _]]; [|discriminate]. rewrite Ez in *. lia.
  - unfold thr_ok in C. rewrite E in C. pose proof (total_ge cP (thrs s) t Hx) as G1. unfold cP in G1 at 1. rewrite C in G1. cbn in G1.
    apply free_inv in Hf. destruct Hf as [F1 F2]. rewrite F2 in K2. destruct (up (wd s)); lia.
Qed.
