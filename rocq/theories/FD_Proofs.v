(** * Proofs about waiting for continuations *)
From Verif Require Import MonitorLemmas MonWake FD_Model.
Set Implicit Arguments.
Notation tst := (tstat dk dop dcv unit).
Notation fdconf := (cfg fds dk dop dres dcv unit).

Definition b2n (b : bool) : nat := if b then 1 else 0.
Definition is_done (x : cstate) : bool := match x with CDone => true | _ => false end.
Definition is_task (x : cstate) : bool := match x with CTask => true | _ => false end.
Definition pdefd (p : policy) : bool := match p with PDeferred => true | _ => false end.

(** a thread runs the parent's function; is inside execute with the mutex; runs the continuation *)
Definition w1 (k : dk) : nat := match k with KParFun | KPFun => 1 | _ => 0 end.
Definition w2 (k : dk) : nat := match k with KPar | KParFun => 1 | _ => 0 end.
Definition w3 (k : dk) : nat := match k with KFun _ => 1 | _ => 0 end.
Definition wk (w : dk -> nat) (x : tst) : nat := match x with Ready _ _ _ k | Asleep _ _ _ k => w k | _ => 0 end.
Definition wo (w : dk -> nat) (o : outcome dk dcv dres) : nat := match o with OYield _ _ k | OSleep _ _ k => w k | _ => 0 end.

Section Inv.
  Variables (pol : policy) (def : bool) (al : dop -> bool).
  Hypothesis Hal : def = true -> al OSet = false.
  Notation P := (fdprog pol al false).

  (** how far the parent and the continuation are, apart from what threads are doing *)
  Definition m1 (s : fds) : nat := b2n (pdef s) + (if def then b2n (pdone s) else 0).
  Definition m2 (s : fds) : nat :=
    match pol with
    | PDeferred => b2n (cdef s) + b2n (is_done (cst s))
    | PSync => b2n (is_done (cst s)) + b2n (negb (pdone s))
    | PAsync => b2n (is_done (cst s)) + b2n (is_task (cst s)) + b2n (negb (pdone s))
    end.
  Definition w23 (k : dk) : nat := match pol with PDeferred => w2 k + w3 k | _ => w3 k end.

  Definition okk (op : dop) (k : dk) : Prop :=
    match k with
    | KStart op' => op' = op
    | KPar | KParFun => op = OWait /\ pol = PDeferred
    | KIntr => False
    | KFun op' => op' = op /\ (op = OWait <-> pol = PDeferred)
    | KPFun => op = OWaitP
    end.
  Definition holds (k : dk) : bool := match k with KPar | KParFun => true | _ => false end.
  Definition blocked (s : fds) (cv : dcv) (op : dop) (k : dk) : Prop :=
    match cv with
    | VMut => k = KStart OWait /\ own s <> None
    | VCon => k = KStart OWait /\ cdef s = false /\ is_done (cst s) = false
    | VPar => (k = KPar \/ k = KStart OWaitP) /\ pdone s = false /\ pdef s = false
    | VTask => k = KStart OWork /\ is_task (cst s) = false
    end.
  Definition stat (t : nat) (s : fds) (x : tst) : Prop :=
    match x with
    | Idle _ _ _ _ => True
    | Ready _ _ op k => okk op k /\ al op = true
    | Asleep _ op cv k => okk op k /\ al op = true /\ blocked s cv op k
    | _ => False end.
  Definition hold (x : tst) : bool := match x with Ready _ _ _ k | Asleep _ _ _ k => holds k | _ => false end.

  Record Inv (c : fdconf) : Prop := {
    v_st : forall t x, nth_error (thr c) t = Some x -> stat t (sh c) x;
    v_own : forall t, own (sh c) = Some t -> exists x, nth_error (thr c) t = Some x /\ hold x = true;
    v_hold : forall t x, nth_error (thr c) t = Some x -> hold x = true -> own (sh c) = Some t;
    v_m1 : m1 (sh c) + sumw (wk w1) (thr c) = b2n def;
    v_m2 : m2 (sh c) + sumw (wk w23) (thr c) = 1;
    v_cd : cdef (sh c) = true -> pol = PDeferred;
    v_tk : is_task (cst (sh c)) = true -> pol = PAsync;
    v_set : forall t r, In (EDone t OSet r) (hist c) -> pdone (sh c) = true }.

  Record fpost (t : nat) (op : dop) (k : dk) (s s' : fds) (ns : list (notif dcv)) (o : outcome dk dcv dres) : Prop := {
    p_out : match o with ORet _ _ r => op = OSet -> pdone s' = true | OYield _ _ k' => okk op k' | OSleep _ cv k' => okk op k' /\ blocked s' cv op k' | _ => False end;
    p_m1 : m1 s' + wo w1 o = m1 s + w1 k;
    p_m2 : m2 s' + wo w23 o = m2 s + w23 k;
    p_own : own s' = if (match o with OYield _ _ k' | OSleep _ _ k' => holds k' | _ => false end) then Some t else if holds k then None else own s;
    p_free : (match o with OYield _ _ k' | OSleep _ _ k' => holds k' | _ => false end) = true -> holds k = true \/ own s = None;
    p_nm : own s <> None -> own s' = None -> In (NAll VMut) ns;
    p_nc : is_done (cst s) = false -> is_done (cst s') = true -> In (NAll VCon) ns;
    p_np : pdone s = false -> pdone s' = true -> In (NAll VPar) ns;
    p_nt : is_task (cst s) = false -> is_task (cst s') = true -> In (NAll VTask) ns;
    p_cd : cdef s = false -> cdef s' = false;
    p_pd : pdef s = false -> pdef s' = false;
    p_pm : pdone s = true -> pdone s' = true;
    p_tk : is_task (cst s') = true -> is_task (cst s) = true \/ pol = PAsync }.

End Inv.

Lemma w23_start pol o : w23 pol (KStart o) = 0.
Proof. destruct pol; reflexivity. Qed.
Ltac fin := constructor; cbn; auto; rewrite ?w23_start; try congruence; try lia; try tauto; try (repeat split; auto; try discriminate; try congruence; fail).
Lemma frag_ok pol def (al : dop -> bool) t e k s s' ns o op : (def = true -> al OSet = false) -> dfrag pol t e k s = (s', ns, o) -> okk pol op k -> al op = true -> (holds k = true -> own s = Some t) ->
  m1 def s + w1 k <= b2n def -> m2 pol s + w23 pol k <= 1 -> (cdef s = true -> pol = PDeferred) -> (is_task (cst s) = true -> pol = PAsync) -> fpost pol def t op k s s' ns o.
Proof.
  intros Hal Hf Hk Ha Ho H1 H2 Hc Htk. destruct s as [pd dn cd cs ow]. cbn in Ho, Hc, Htk.
  assert (Hdef : op = OSet -> def = false) by (intros ->; destruct def; auto; rewrite Hal in Ha; auto).
  destruct k as [op'| | | |op'|]; cbn in Hk; try contradiction.
  - subst op'. destruct op.
    + destruct ow as [u|]; [inversion Hf; subst; fin|]. cbn in Hf. destruct cd.
      * rewrite (Hc eq_refl) in *. inversion Hf; subst. fin.
      * destruct cs; inversion Hf; subst; fin.
    + specialize (Hdef eq_refl). subst def. cbn in Hf. unfold m1, m2, w23, parent_done in *. destruct dn; [inversion Hf; subst; fin|]. destruct pol; inversion Hf; subst; clear Hf; destruct cs; cbn in H1, H2; try lia; fin.
    + cbn in Hf. unfold m1, m2, w23 in *. destruct def, pd, dn; inversion Hf; subst; clear Hf; cbn in H1; try lia; fin.
    + cbn in Hf. unfold m1, m2, w23 in *. destruct cs, pol; cbn in Htk; try discriminate (Htk eq_refl); inversion Hf; subst; clear Hf; cbn in H1, H2; try lia; fin.
  - destruct Hk as [-> ->]. specialize (Ho eq_refl). subst ow. cbn in Hf. unfold m1, m2, w23 in *. destruct def, pd, dn; inversion Hf; subst; clear Hf; cbn in H1; try lia; fin.
  - destruct Hk as [-> ->]. specialize (Ho eq_refl). subst ow. cbn in Hf. unfold m1, m2, w23 in *. inversion Hf; subst; clear Hf. destruct def, dn, pd; cbn in H1, H2; try lia; fin.
  - destruct Hk as [-> Hk]. cbn in Hf. unfold m1, m2, w23 in *. inversion Hf; subst; clear Hf. destruct pol, cs, dn; cbn in H1, H2; try lia; fin.
    all: intros ->; discriminate (proj2 Hk eq_refl).
  - subst op. cbn in Hf. unfold m1, m2, w23, parent_done in *. destruct def, dn, pd; cbn in H1; try lia. destruct pol; inversion Hf; subst; clear Hf; destruct cs; cbn in H1, H2; try lia; fin.
Qed.

Section Reach.
  Variables (pol : policy) (def : bool) (al : dop -> bool).
  Hypothesis Hal : def = true -> al OSet = false.
  Notation P := (fdprog pol al false).
  Notation Inv := (Inv pol def al).

  Lemma upd_thr (l : list tst) t y u x : t < length l -> nth_error (upd l t y) u = Some x -> u = t /\ x = y \/ u <> t /\ nth_error l u = Some x.
  Proof.
    intros Hlt H. destruct (Nat.eq_dec u t) as [->|Hn]; [left|right; split; auto].
    - rewrite nth_error_upd_same in H by auto. split; congruence.
    - now rewrite nth_error_upd_other in H by auto.
  Qed.
  Lemma woken_back (l l' : list tst) u x : woken_rel l l' -> nth_error l' u = Some x -> exists x0, nth_error l u = Some x0 /\ (x = x0 \/ is_asleep x0 = true /\ x = wake x0).
  Proof.
    intros [Hlen Hw] Hx. destruct (nth_error l u) as [x0|] eqn:E.
    - exists x0. split; auto. destruct (Hw _ _ E) as [E'|[Ha E']]; rewrite E' in Hx; injection Hx as <-; auto.
    - apply nth_error_None in E. assert (u < length l') by (apply nth_error_Some; congruence). lia.
  Qed.
  Lemma hold_wake (x : tst) : hold (wake x) = hold x.
  Proof. destruct x; reflexivity. Qed.
  Lemma wk_wake w (x : tst) : wk w (wake x) = wk w x.
  Proof. destruct x; reflexivity. Qed.

  Lemma Inv_step c c' : Inv c -> stepcase P c c' -> Inv c'.
  Proof.
    intros [I1 I2 I3 I4 I5 I6 I7 I8] Hs. destruct Hs as
     [t l op Ht Hp ->|t ps e l op k s' ns o thr' Ht Hfr Hd ->|t p l n ns thr' Ht Hd ->
     |t l op cv k Ht ->|t l op cv k k' Ht Hk ->|t l op cv k k' Ht Hk ->|t l op k k' Ht Hk ->]; try discriminate Hk.
    - assert (Hlt : t < length (thr c)) by (apply nth_error_Some; congruence). constructor; cbn [sh thr hist start fdprog]; auto.
      + intros u x Hx. apply upd_thr in Hx as [[-> ->]|[Hn Hx]]; auto. split; auto. reflexivity.
      + intros u Hu. destruct (I2 _ Hu) as (x & Hx & Hh). destruct (Nat.eq_dec u t) as [->|Hn]; [rewrite Ht in Hx; injection Hx as <-; discriminate|]. exists x. rewrite nth_error_upd_other; auto.
      + intros u x Hx Hh. apply upd_thr in Hx as [[-> ->]|[Hn Hx]]; auto; [discriminate|eauto].
      + pose proof (sumw_upd (wk w1) (Ready dcv l op (KStart op)) Ht) as H. cbn [wk w1] in H. lia.
      + pose proof (sumw_upd (wk (w23 pol)) (Ready dcv l op (KStart op)) Ht) as H. cbn [wk] in H. rewrite w23_start in H. lia.
      + intros u r [H|H]; [discriminate|eauto].
    - destruct (I1 _ _ Ht) as [Hk Ha]. cbn [frag fdprog] in Hfr.
      pose proof (deliver_all_woken Hd) as Hw. assert (Hlt : t < length thr') by (rewrite (woken_length Hw); apply nth_error_Some; congruence).
      assert (Ht' : nth_error thr' t = Some (Ready dcv l op k)) by (eapply woken_not_asleep; eauto).
      pose proof (sumw_ge (wk w1) Ht) as G1. pose proof (sumw_ge (wk (w23 pol)) Ht) as G2. cbn [wk] in G1, G2.
      assert (FP : fpost pol def t op k (sh c) s' ns o).
      { eapply frag_ok; eauto; try lia. }
      destruct FP as [F1 F2 F3 F4 F5 F6 F7 F8 F9 F10 F11 F12 F13].
      set (y := fst (after P t l op o (hist c))). assert (Ey : forall w, wk w y = wo w o) by (intros w; destruct o; try contradiction; reflexivity).
      assert (Eh : hold y = match o with OYield _ _ k' | OSleep _ _ k' => holds k' | _ => false end) by (destruct o; try contradiction; reflexivity).
      assert (S1 : forall w, sumw (wk w) thr' = sumw (wk w) (thr c)) by (intros w; apply woken_sumw_eq; auto; intros; apply wk_wake).
      constructor; cbn [sh thr hist start fdprog]; auto.
      + intros u z Hz. apply upd_thr in Hz as [[-> ->]|[Hn Hz]]; auto.
        * unfold y. destruct o; try contradiction; cbn; auto. destruct F1; auto.
        * destruct (woken_back _ Hw Hz) as (z0 & Hz0 & Hzz). specialize (I1 _ _ Hz0).
          destruct z0 as [u0|u0 op0 k0|u0 op0 cv0 k0|u0 ns0|]; destruct Hzz as [->|[Ha0 ->]]; try discriminate; cbn in I1 |- *; auto; [|tauto].
          destruct I1 as (J1 & J2 & J3). split; auto. split; auto.
          assert (K : In (NAll cv0) ns -> False).
          { intros Hi. pose proof (deliver_all_NAll P cv0 ns ps _ Hd Hi) as Hx. rewrite Forall_forall in Hx. specialize (Hx _ (nth_error_In _ _ Hz)). unfold not_on in Hx. destruct cv0; cbn in Hx; discriminate. }
          destruct cv0; cbn in J3 |- *.
          -- destruct J3 as [J3 J4]. split; auto.
          -- destruct J3 as (J3 & J4 & J5). split; auto. split; auto. destruct (pdone s') eqn:E; auto. exfalso; auto.
          -- destruct J3 as (J3 & J4 & J5). split; auto. split; auto. destruct (is_done (cst s')) eqn:E; auto. exfalso; auto.
          -- destruct J3 as (J3 & J4). split; auto. destruct (is_task (cst s')) eqn:E; auto. exfalso; auto.
      + intros u Hu. rewrite F4, <- Eh in Hu. destruct (hold y) eqn:E.
        * injection Hu as <-. exists y. rewrite nth_error_upd_same; auto.
        * destruct (holds k) eqn:E2; [discriminate|]. destruct (I2 _ Hu) as (x & Hx & Hh). destruct (Nat.eq_dec u t) as [->|Hn].
          { rewrite Ht in Hx. injection Hx as <-. cbn in Hh. congruence. }
          destruct Hw as [_ Hw]. destruct (Hw _ _ Hx) as [E3|[_ E3]]; [exists x|exists (wake x)]; rewrite nth_error_upd_other by auto; split; auto. now rewrite hold_wake.
      + intros u z Hz Hh. rewrite F4, <- Eh. apply upd_thr in Hz as [[-> ->]|[Hn Hz]]; auto; [now rewrite Hh|].
        destruct (woken_back _ Hw Hz) as (z0 & Hz0 & Hzz). assert (Hh0 : hold z0 = true) by (destruct Hzz as [->|[_ ->]]; [auto|now rewrite hold_wake in Hh]).
        pose proof (I3 _ _ Hz0 Hh0) as Ho. destruct (hold y) eqn:E.
        * destruct F5 as [E2|E2]; [congruence| |congruence]. assert (own (sh c) = Some t) by (apply (I3 t _ Ht); exact E2). congruence.
        * destruct (holds k) eqn:E2; auto. assert (own (sh c) = Some t) by (apply (I3 t _ Ht); exact E2). congruence.
      + pose proof (sumw_upd (wk w1) y Ht') as H. rewrite Ey, S1 in H. cbn [wk] in H. fold y. lia.
      + pose proof (sumw_upd (wk (w23 pol)) y Ht') as H. rewrite Ey, S1 in H. cbn [wk] in H. fold y. lia.
      + intros H. apply I6. destruct (cdef (sh c)) eqn:E; auto. rewrite F10 in H; auto.
      + intros H. destruct (F13 H); auto.
      + intros u r Hin. destruct o as [r0| | |k'|]; try contradiction; cbn in Hin; eauto. destruct Hin as [H|H]; eauto. injection H as <- -> <-. auto.
    - destruct (I1 _ _ Ht).
    - assert (Hlt : t < length (thr c)) by (apply nth_error_Some; congruence). constructor; cbn [sh thr hist start fdprog]; auto.
      + intros u x Hx. apply upd_thr in Hx as [[-> ->]|[Hn Hx]]; auto. destruct (I1 _ _ Ht) as (J1 & J2 & _). split; auto.
      + intros u Hu. destruct (I2 _ Hu) as (x & Hx & Hh). destruct (Nat.eq_dec u t) as [->|Hn].
        * eexists. rewrite nth_error_upd_same by auto. split; eauto. rewrite Ht in Hx; injection Hx as <-. exact Hh.
        * exists x. rewrite nth_error_upd_other; auto.
      + intros u x Hx Hh. apply upd_thr in Hx as [[-> ->]|[Hn Hx]]; auto; [|eauto]. exact (I3 _ _ Ht Hh).
      + pose proof (sumw_upd (wk w1) (Ready dcv l op k) Ht) as H. cbn [wk] in H. lia.
      + pose proof (sumw_upd (wk (w23 pol)) (Ready dcv l op k) Ht) as H. cbn [wk] in H. lia.
  Qed.

  Lemma Inv_reachable n c : reachable P n (finit pol def) tt c -> Inv c.
  Proof.
    apply (reachable_inv P Inv); [|intros c0 c1; apply Inv_step].
    assert (Hi : forall t (x : tst), nth_error (repeat (Idle dk dop dcv tt) n) t = Some x -> x = Idle dk dop dcv tt) by (intros t x Hx; apply nth_error_In, repeat_spec in Hx; auto).
    constructor; cbn; try discriminate; try contradiction; auto.
    - intros t x Hx. apply Hi in Hx. subst. exact I.
    - intros u x Hx. apply Hi in Hx. subst. discriminate.
    - rewrite sumw_repeat. cbn. destruct def; cbn; lia.
    - rewrite sumw_repeat. cbn. destruct pol; cbn; lia.
    - destruct pol; auto; discriminate.
  Qed.

  (** at rest *)
  Lemma no_ready c w : Inv c -> quiescent c -> (forall l op cv k, In (Asleep l op cv k) (thr c) -> w k = 0) -> sumw (wk w) (thr c) = 0.
  Proof.
    intros HI Hq H. apply sumw_zero. intros y Hy. pose proof Hy as Hin. apply In_nth_error in Hy as [t Ht].
    destruct (quiescent_settled Hq Ht) as [(l & ->)|(l & op & cv & k & ->)]; [reflexivity|]. cbn. eauto.
  Qed.
  Lemma asleep_k c t l op cv k : Inv c -> nth_error (thr c) t = Some (Asleep l op cv k) -> k = KPar /\ op = OWait /\ pol = PDeferred /\ cv = VPar /\ pdone (sh c) = false /\ pdef (sh c) = false \/ k = KStart op.
  Proof.
    intros HI Ht. destruct (v_st HI _ Ht) as (J1 & J2 & J3). destruct k; cbn in J1.
    - right. congruence.
    - destruct J1 as [-> ->]. destruct cv; cbn in J3; destruct J3 as [J3 J4]; try discriminate. left. tauto.
    - destruct cv; cbn in J3; destruct J3 as [J3 J4]; try discriminate. destruct J3; discriminate.
    - contradiction.
    - destruct cv; cbn in J3; destruct J3 as [J3 J4]; try discriminate. destruct J3; discriminate.
    - destruct cv; cbn in J3; destruct J3 as [J3 J4]; try discriminate. destruct J3; discriminate.
  Qed.
  Lemma no_w1 c : Inv c -> quiescent c -> sumw (wk w1) (thr c) = 0.
  Proof.
    intros HI Hq. apply no_ready; auto. intros l op cv k Hin. apply In_nth_error in Hin as [t Ht]. destruct (asleep_k _ HI Ht) as [(-> & _)| -> ]; reflexivity.
  Qed.
  Lemma at_rest c : Inv c -> quiescent c -> (def = true -> pol = PDeferred) -> (def = false -> pdone (sh c) = true) ->
    (pol = PAsync -> exists t l cv k, nth_error (thr c) t = Some (Asleep l OWork cv k)) ->
    forall t l cv k, nth_error (thr c) t <> Some (Asleep l OWait cv k).
  Proof.
    intros HI Hq Hd Hp Hw t l cv k Ht.
    assert (NP : pdone (sh c) = false -> pdef (sh c) = false -> False).
    { intros E1 E2. pose proof (v_m1 HI) as H. rewrite (no_w1 HI Hq) in H. unfold m1 in H. rewrite E1, E2 in H. destruct def; cbn in H; [lia|]. rewrite Hp in E1; auto. discriminate. }
    assert (NK : forall t l op cv k, nth_error (thr c) t = Some (Asleep l op cv k) -> k = KStart op).
    { intros t0 l0 op0 cv0 k0 H0. destruct (asleep_k _ HI H0) as [(_ & _ & _ & _ & E1 & E2)|]; auto. destruct (NP E1 E2). }
    assert (N2 : sumw (wk (w23 pol)) (thr c) = 0).
    { apply no_ready; auto. intros l0 op0 cv0 k0 Hin. apply In_nth_error in Hin as [t0 H0]. rewrite (NK _ _ _ _ _ H0). apply w23_start. }
    pose proof (v_m2 HI) as M. rewrite N2 in M. rewrite (NK _ _ _ _ _ Ht) in Ht. destruct (v_st HI _ Ht) as (J1 & J2 & J3). destruct cv; cbn in J3.
    - destruct J3 as [_ J3]. destruct (own (sh c)) as [u|] eqn:E; [|congruence]. destruct (v_own HI E) as (x & Hx & Hh).
      destruct (quiescent_settled Hq Hx) as [(l' & ->)|(l' & op' & cv' & k' & ->)]; [discriminate|]. rewrite (NK _ _ _ _ _ Hx) in Hh. discriminate.
    - destruct J3 as [_ [E1 E2]]. auto.
    - destruct J3 as (_ & J4 & J5). unfold m2 in M. rewrite J4, J5 in M. destruct pol; cbn in M; try lia.
      + destruct (Hw eq_refl) as (t' & l' & cv' & k' & Ht'). rewrite (NK _ _ _ _ _ Ht') in Ht'. destruct (v_st HI _ Ht') as (_ & _ & J6).
        destruct cv'; cbn in J6; destruct J6 as [J6 J7]; try discriminate; [destruct J6; discriminate|]. rewrite J7 in M. cbn in M.
        destruct def; [discriminate Hd; auto|]. rewrite Hp in M by auto. cbn in M. lia.
      + destruct def; [discriminate Hd; auto|]. rewrite Hp in M by auto. cbn in M. lia.
    - destruct J3 as [J3 _]. discriminate.
  Qed.
End Reach.
