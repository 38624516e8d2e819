(** * Proofs about the Windows mutexes *)
From Verif Require Import MonWake WM_Model WM_Spec.
Set Implicit Arguments.

Lemma word_eqb_eq a b : word_eqb a b = true -> a = b.
Proof. destruct a as [a1 a2 a3], b as [b1 b2 b3]. unfold word_eqb. cbn. intros H. apply andb_prop in H as [H H3]. apply andb_prop in H as [H1 H2]. apply Bool.eqb_prop in H1, H2. apply Nat.eqb_eq in H3. subst. reflexivity. Qed.
Lemma word_eqb_refl a : word_eqb a a = true.
Proof. destruct a as [a1 a2 a3]. unfold word_eqb. cbn. now rewrite !Bool.eqb_reflx, Nat.eqb_refl. Qed.

Section WM.
  Notation P := wmprog.
  Notation tst := (tstat wkk wop unit bool).
  Definition b2n (b : bool) : nat := if b then 1 else 0.

  Definition kop (m : bool) : wop := if m then OTimed else OLock.
  Definition kok (op : wop) (k : wkk) : Prop :=
    match k with
    | KB op' => op' = op
    | KRead m | KMark m _ | KWait m _ | KClr m _ => op = kop m
    | KTime _ | KDec => op = OTimed
    | KEvt | KSet => op = OUnlock
    end.
  Definition isunl (op : wop) : bool := match op with OUnlock => true | _ => false end.
  Definition stat (s : wm) (x : tst) : Prop :=
    match x with
    | Idle _ _ _ _ => True
    | Ready _ l op k => kok op k /\ l = isunl op
    | Asleep l op _ k => kok op k /\ l = false /\ ev s = false /\ exists m o, k = KWait m o
    | _ => False
    end.
  Definition kO (k : wkk) : nat := match k with KB OUnlock => 1 | _ => 0 end.
  Definition kN (k : wkk) : nat := match k with KTime _ | KDec | KWait _ _ | KClr _ _ => 1 | _ => 0 end.
  Definition kS (k : wkk) : nat := match k with KClr _ _ | KSet => 1 | _ => 0 end.
  Definition kE (k : wkk) : nat := match k with KEvt => 1 | _ => 0 end.
  Definition wgt (i : bool -> nat) (w : wkk -> nat) (x : tst) : nat :=
    match x with Idle _ _ _ l => i l | Ready _ _ _ k | Asleep _ _ _ k => w k | _ => 0 end.
  Definition z (_ : bool) : nat := 0.
  Definition wO := wgt b2n kO.
  Definition wN := wgt z kN.
  Definition wS := wgt z kS.
  Definition wE := wgt z kE.
  Lemma wgt_wake i w x : wgt i w (wake x) = wgt i w x.
  Proof. destruct x; reflexivity. Qed.

  Record Inv (c : wmconf) : Prop := {
    v_st : Forall (stat (sh c)) (thr c);
    v_own : sumw wO (thr c) = b2n (lk (wd (sh c)));
    v_n : sumw wN (thr c) = nw (wd (sh c));
    v_s : sumw wS (thr c) + b2n (ev (sh c)) = b2n (es (wd (sh c)));
    v_e : lk (wd (sh c)) = false -> 0 < nw (wd (sh c)) -> es (wd (sh c)) = true \/ 0 < sumw wE (thr c) }.

  Definition oI (l : bool) (op : wop) (i : bool -> nat) (w : wkk -> nat) (o : outcome wkk unit bool) : nat :=
    match o with ORet _ _ r => i (wnext l op r) | OYield _ _ k | OSleep _ _ k => w k | _ => 0 end.
  Record fpost (op : wop) (k : wkk) (s s' : wm) (ns : list (notif unit)) (o : outcome wkk unit bool) : Prop := {
    p_o : match o with ORet _ _ _ => True | OYield _ _ k' => kok op k' | OSleep _ _ k' => kok op k' /\ ev s' = false /\ isunl op = false /\ exists m w, k' = KWait m w | _ => False end;
    p_own : oI (isunl op) op b2n kO o + b2n (lk (wd s)) = kO k + b2n (lk (wd s'));
    p_n : oI (isunl op) op z kN o + nw (wd s) = kN k + nw (wd s');
    p_s : oI (isunl op) op z kS o + b2n (ev s') + b2n (es (wd s)) = kS k + b2n (ev s) + b2n (es (wd s'));
    p_e : lk (wd s') = false -> 0 < nw (wd s') -> es (wd s') = true \/ 0 < oI (isunl op) op z kE o \/ (kE k = 0 /\ es (wd s) = false /\ lk (wd s) = false /\ 0 < nw (wd s));
    p_ev : ev s = false -> ev s' = true -> In (NAll tt) ns }.

  Ltac fin m E V := cbn; auto; try discriminate; try congruence; try lia; try (intros; destruct E; auto 10; fail); try (destruct m; cbn; auto; lia);
    try (destruct m, E, V; cbn in *; auto; lia); try (destruct E, V; cbn in *; auto; lia).
  Lemma frag_ok t e k s s' ns o op : wfrag t e k s = (s', ns, o) -> kok op k -> (kO k = 1 -> lk (wd s) = true) -> (kN k <= nw (wd s)) -> (kS k + b2n (ev s) <= b2n (es (wd s))) -> fpost op k s s' ns o.
  Proof.
    intros Hf Hk H1 H2 H3. destruct s as [[L E n] V]. cbn [wd lk es nw ev] in *.
    destruct k as [op'|m|m old|old| |m old|m old| |]; cbn [kok kO kN kS] in *; cbn [wfrag wd lk es nw ev] in Hf; subst.
    - destruct op; cbn in Hf.
      + destruct L; inversion Hf; subst; constructor; cbn; auto; try discriminate; try congruence; try lia.
      + destruct L; inversion Hf; subst; constructor; cbn; auto; try discriminate; try congruence; try lia.
      + destruct L; inversion Hf; subst; constructor; cbn; auto; try discriminate; try congruence; try lia.
      + rewrite (H1 eq_refl) in Hf |- *. cbn in Hf. destruct E; cbn in Hf; [|destruct n as [|n]; cbn in Hf]; inversion Hf; subst; constructor; cbn; auto; try discriminate; try congruence; try lia.
    - inversion Hf; subst; constructor; fin m E V.
    - destruct (word_eqb (MkW L E n) old) eqn:Eq; [apply word_eqb_eq in Eq; subst old; cbn [lk es nw] in Hf; destruct L|]; inversion Hf; subst; constructor; fin m E V.
    - destruct e; inversion Hf; subst; constructor; fin true E V.
    - inversion Hf; subst; constructor; fin true E V.
    - destruct V; inversion Hf; subst; constructor; fin m E true. split; auto. split; auto. split; [destruct m; reflexivity|eauto].
    - destruct (word_eqb (MkW L E n) old) eqn:Eq; [apply word_eqb_eq in Eq; subst old; cbn [lk es nw] in Hf; destruct L|]; inversion Hf; subst; constructor; fin m E V.
    - destruct E; inversion Hf; subst; constructor; fin true true V.
    - inversion Hf; subst; constructor; fin true E V.
  Qed.

  Lemma stat_mono s s' x : (forall m o l op, x = Asleep l op tt (KWait m o) -> ev s = false -> ev s' = false) -> stat s x -> stat s' x.
  Proof. intros He. destruct x as [l|l op k|l op [] k|l ns|]; cbn; auto. intros (H1 & H2 & H3 & m & o & ->). repeat split; eauto. Qed.
  Lemma kok_unl op m : op = kop m -> isunl op = false. Proof. intros ->. destruct m; reflexivity. Qed.
  Lemma after_wgt i w t l op o h : match o with OFin _ _ _ => False | _ => True end -> wgt i w (fst (after P t l op o h)) = oI l op i w o.
  Proof. destruct o; cbn; auto; contradiction. Qed.

  Lemma Inv_step c c' : Inv c -> stepcase P c c' -> Inv c'.
  Proof.
    intros [I1 I2 I3 I4 I5] Hs. destruct Hs as
     [t l op Ht Hp ->|t ps e l op k s' ns o thr' Ht Hfr Hd ->|t p l n ns thr' Ht Hd ->
     |t l op cv k Ht ->|t l op cv k k' Ht Hk ->|t l op cv k k' Ht Hk ->|t l op k k' Ht Hk ->]; try discriminate Hk.
    - pose proof (sumw_upd wO (Ready unit l op (KB op)) Ht) as E1. pose proof (sumw_upd wN (Ready unit l op (KB op)) Ht) as E2.
      pose proof (sumw_upd wS (Ready unit l op (KB op)) Ht) as E3. pose proof (sumw_upd wE (Ready unit l op (KB op)) Ht) as E4.
      cbn in E1, E2, E3, E4, Hp. assert (Hl : l = isunl op) by (destruct op, l; cbn in *; congruence).
      constructor; cbn [sh thr start wmprog].
      + apply Forall_upd; auto. cbn. auto.
      + subst l. destruct op; cbn in *; lia.
      + unfold z in *. lia.
      + unfold z in *. lia.
      + intros H H'. destruct (I5 H H'); auto. right. unfold z in *. lia.
    - pose proof (Forall_nth_error I1 Ht) as [Hk Hl]. pose proof (sumw_ge wO Ht) as G1. pose proof (sumw_ge wN Ht) as G2. pose proof (sumw_ge wS Ht) as G3. cbn in G1, G2, G3.
      assert (FP : fpost op k (sh c) s' ns o).
      { eapply frag_ok; eauto; try lia. intros E. destruct (lk (wd (sh c))); auto. cbn in I2. lia. }
      pose proof (deliver_all_woken Hd) as Hw.
      assert (Ht' : nth_error thr' t = Some (Ready unit l op k)) by (apply (woken_not_asleep Hw Ht); reflexivity).
      assert (EW : forall i w, sumw (wgt i w) thr' = sumw (wgt i w) (thr c)) by (intros i w; apply (woken_sumw_eq _ Hw); intros x _; apply wgt_wake).
      assert (NF : match o with OFin _ _ _ => False | _ => True end) by (destruct FP as [F _ _ _ _ _]; destruct o; auto).
      assert (U : forall i w, sumw (wgt i w) (upd thr' t (fst (after P t l op o (hist c)))) + w k = sumw (wgt i w) (thr c) + oI l op i w o).
      { intros i w. rewrite <- (EW i w), <- (@after_wgt i w t l op o (hist c) NF). apply (sumw_upd (wgt i w) _ Ht'). }
      subst l. destruct FP as [F0 F1 F2 F3 F4 F5].
      assert (U1 := U b2n kO). assert (U2 := U z kN). assert (U3 := U z kS). assert (U4 := U z kE). fold wO in U1. fold wN in U2. fold wS in U3. fold wE in U4.
      constructor; cbn [sh thr].
      + apply Forall_upd.
        * apply Forall_forall. intros x Hx. apply In_nth_error in Hx as [u Hu].
          assert (Hst : stat (sh c) x).
          { destruct (nth_error (thr c) u) as [x0|] eqn:Hx0; [|apply nth_error_None in Hx0; assert (u < length thr') by (apply nth_error_Some; congruence); rewrite (woken_length Hw) in H; lia].
            pose proof (Forall_nth_error I1 Hx0) as S0. destruct (proj2 Hw _ _ Hx0) as [E'|[Ha E']]; rewrite E' in Hu; injection Hu as <-; auto.
            destruct x0; try discriminate. cbn in S0 |- *. destruct S0 as (Q1 & -> & _ & m & o' & ->). split; auto. cbn in Q1. subst. destruct m; reflexivity. }
          eapply stat_mono; [|exact Hst]. intros m o' l1 op1 -> Hev. destruct (ev s') eqn:E'; auto. exfalso.
          pose proof (deliver_all_NAll P tt ns ps _ Hd (F5 Hev eq_refl)) as Hx. pose proof (Forall_nth_error Hx Hu) as Hy. discriminate.
        * destruct o as [r|r ns'|cv' k'|k'|]; cbn in F0 |- *; try contradiction; auto. destruct F0 as (Q1 & Q2 & Q3 & Q4). auto.
      + lia.
      + lia.
      + lia.
      + intros H H'. destruct (F4 H H') as [E|[E|(E1 & E2 & E3 & E4)]]; auto.
        * right. pose proof (sumw_ge wE Ht) as G4. cbn in G4. lia.
        * right. destruct (I5 E3 E4); [congruence|]. lia.
    - destruct (Forall_nth_error I1 Ht).
    - pose proof (Forall_nth_error I1 Ht) as (Hk & -> & Hev & m & o' & ->).
      pose proof (fun i w => sumw_upd (wgt i w) (Ready unit false op (KWait m o')) Ht) as U. cbn [wgt] in U.
      assert (U1 := U b2n kO). assert (U2 := U z kN). assert (U3 := U z kS). assert (U4 := U z kE). fold wO in U1. fold wN in U2. fold wS in U3. fold wE in U4.
      constructor; cbn [sh thr]; try lia.
      + apply Forall_upd; auto. cbn in Hk |- *. subst. destruct m; auto.
      + intros H H'. destruct (I5 H H'); auto. right. lia.
    - pose proof (Forall_nth_error I1 Ht) as (Hk' & -> & Hev & m & o' & ->). cbn in Hk. destruct m; [|discriminate]. injection Hk as <-.
      pose proof (fun i w => sumw_upd (wgt i w) (Ready unit false op (KTime o')) Ht) as U. cbn [wgt] in U.
      assert (U1 := U b2n kO). assert (U2 := U z kN). assert (U3 := U z kS). assert (U4 := U z kE). fold wO in U1. fold wN in U2. fold wS in U3. fold wE in U4. cbn in U1, U2, U3, U4.
      constructor; cbn [sh thr]; try lia.
      + apply Forall_upd; auto. cbn in Hk' |- *. subst. auto.
      + intros H H'. destruct (I5 H H'); auto. right. lia.
  Qed.
  Lemma Inv_reachable n c : reachable P n wm0 false c -> Inv c.
  Proof.
    apply (reachable_inv P Inv).
    - constructor; cbn [sh thr init].
      + apply Forall_forall. intros x Hx. apply repeat_spec in Hx. subst. exact I.
      + rewrite sumw_repeat, Nat.mul_0_r. reflexivity.
      + rewrite sumw_repeat, Nat.mul_0_r. reflexivity.
      + rewrite sumw_repeat, Nat.mul_0_r. reflexivity.
      + cbn. lia.
    - intros c0 c' HI Hs. eapply Inv_step; eauto.
  Qed.

  Lemma owns_w (c : wmconf) t : Inv c -> (wm_owns c t <-> exists x, nth_error (thr c) t = Some x /\ wO x = 1).
  Proof.
    intros HI. split.
    - intros [H|[l H]]; eexists; split; eauto.
    - intros (x & Hx & H). pose proof (Forall_nth_error (v_st HI) Hx) as S0. destruct x as [l|l op k|l op cv k|l ns|]; cbn in H, S0; try discriminate; try contradiction.
      + destruct l; [|discriminate]. left; auto.
      + destruct k as [[]| | | | | | | |]; try discriminate. destruct S0 as [S0 ->]. cbn in S0. subst op. right; eauto.
      + destruct S0 as (_ & _ & _ & m & o & ->). discriminate.
  Qed.
  Lemma wO_le x : wO x <= 1.
  Proof. destruct x as [[]|? ? []|? ? ? []|? ?|]; cbn; auto; destruct op0; auto. Qed.

  Lemma exclusive n c t t' : reachable P n wm0 false c -> wm_owns c t -> wm_owns c t' -> t = t'.
  Proof.
    intros Hr H1 H2. pose proof (Inv_reachable Hr) as HI. apply (owns_w _ HI) in H1 as (x & Hx & E1). apply (owns_w _ HI) in H2 as (y & Hy & E2).
    destruct (Nat.eq_dec t t') as [|Hne]; auto. exfalso. pose proof (sumw_ge2 wO Hne Hx Hy) as G. rewrite (v_own HI) in G. destruct (lk (wd (sh c))); cbn in G; lia.
  Qed.
  Lemma flag_owner c : Inv c -> (lk (wd (sh c)) = true <-> exists t, wm_owns c t).
  Proof.
    intros HI. split.
    - intros E. assert (Hp : 0 < sumw wO (thr c)) by (rewrite (v_own HI), E; cbn; lia). apply sumw_pos in Hp as (t & x & Hx & Hp). exists t. apply (owns_w _ HI). exists x. split; auto. pose proof (wO_le x). lia.
    - intros [t H]. apply (owns_w _ HI) in H as (x & Hx & E). pose proof (sumw_ge wO Hx) as G. rewrite (v_own HI) in G. destruct (lk (wd (sh c))); auto. cbn in G; lia.
  Qed.
  Lemma quiet_zero (c : wmconf) w : quiescent c -> Forall (stat (sh c)) (thr c) -> (forall m o, w (KWait m o) = 0) -> sumw (wgt z w) (thr c) = 0.
  Proof.
    intros Hq Hst H0. apply sumw_zero. intros x Hx. apply In_nth_error in Hx as [u Hu]. pose proof (Forall_nth_error Hst Hu) as S0.
    destruct (quiescent_settled Hq Hu) as [(l & ->)|(l & op & cv & k & ->)]; cbn; auto. destruct S0 as (_ & _ & _ & m & o & ->). auto.
  Qed.
  Lemma no_lost_wakeup n c t op : reachable P n wm0 false c -> quiescent c -> wm_blocked c t op -> exists t', t' <> t /\ wm_owns c t'.
  Proof.
    intros Hr Hq (l & cv & k & Ht). pose proof (Inv_reachable Hr) as HI. pose proof (Forall_nth_error (v_st HI) Ht) as (Hk & -> & Hev & m & o & ->).
    destruct (lk (wd (sh c))) eqn:E.
    - apply (flag_owner HI) in E as [t' H]. exists t'. split; auto. intros ->. destruct H as [H|[? H]]; congruence.
    - exfalso. assert (Hn : 0 < nw (wd (sh c))) by (rewrite <- (v_n HI); pose proof (sumw_ge wN Ht) as G; cbn in G; lia).
      pose proof (v_s HI) as Es. unfold wS in Es. rewrite (@quiet_zero c kS Hq (v_st HI)), Hev in Es by reflexivity.
      destruct (v_e HI E Hn) as [H|H]; [rewrite H in Es; cbn in Es; lia|]. unfold wE in H. rewrite (@quiet_zero c kE Hq (v_st HI)) in H by reflexivity. lia.
  Qed.
  Lemma try_exact n c t ps e c1 c2 r : reachable P n wm0 false c ->
    step P c (LCall bool t OTry) = Some c1 -> step P c1 (LRun wop t ps e) = Some c2 -> hist c2 = EDone t OTry r :: hist c1 ->
    r = true <-> forall t', ~ wm_owns c t'.
  Proof.
    intros Hr H1 H2 Hh. pose proof (flag_owner (Inv_reachable Hr)) as HF.
    cbn [step] in H1. destruct (nth_error (thr c) t) as [x|] eqn:Ht; [|discriminate]. destruct x as [l| | | |]; try discriminate.
    destruct (pre _ l OTry); [|discriminate]. injection H1 as <-. cbn [step thr sh hist] in H2.
    rewrite (nth_error_upd_same _ _ (nth_error_lt Ht)) in H2. cbn [frag wmprog start] in H2. cbn [wfrag] in H2.
    destruct (lk (wd (sh c))) eqn:E; cbn in H2; injection H2 as <-; cbn in Hh; injection Hh as <-.
    - split; [discriminate|]. intros Hn. destruct (proj1 HF eq_refl) as [t' Ht']. destruct (Hn _ Ht').
    - split; auto. intros _ t' Hown. assert (false = true) by (apply HF; eauto). discriminate.
  Qed.
  Lemma count_exact n c : reachable P n wm0 false c -> quiescent c -> nw (wd (sh c)) = sumw (fun x : tst => match x with Asleep _ _ _ _ => 1 | _ => 0 end) (thr c).
  Proof.
    intros Hr Hq. pose proof (Inv_reachable Hr) as HI. rewrite <- (v_n HI). apply sumw_ext. intros x Hx. apply In_nth_error in Hx as [u Hu]. pose proof (Forall_nth_error (v_st HI) Hu) as S0.
    destruct (quiescent_settled Hq Hu) as [(l & ->)|(l & op & cv & k & ->)]; cbn; auto. destruct S0 as (_ & _ & _ & m & o & ->). auto.
  Qed.
  Lemma unlock_done n c t l ps e c' : reachable P n wm0 false c ->
    (forall t', ~ exists l op, (op = OLock \/ op = OTimed) /\ ((exists k, nth_error (thr c) t' = Some (Ready unit l op k)) \/ (exists cv k, nth_error (thr c) t' = Some (Asleep l op cv k)))) ->
    nth_error (thr c) t = Some (Ready unit l OUnlock (KB OUnlock)) -> step P c (LRun wop t ps e) = Some c' ->
    ~ exists l k, nth_error (thr c') t = Some (Ready unit l OUnlock k) /\ k <> KB OUnlock.
  Proof.
    intros Hr Hn Ht Hs. pose proof (Inv_reachable Hr) as HI. cbn [step] in Hs. rewrite Ht in Hs. cbn [frag wmprog] in Hs.
    assert (HL : lk (wd (sh c)) = true) by (apply (flag_owner HI); exists t; right; eauto).
    assert (HN : nw (wd (sh c)) = 0).
    { rewrite <- (v_n HI). apply sumw_zero. intros x Hx. apply In_nth_error in Hx as [u Hu]. pose proof (Forall_nth_error (v_st HI) Hu) as S0.
      destruct x as [l1|l1 op1 k1|l1 op1 cv1 k1|l1 ns1|]; auto.
      - destruct S0 as [S0 _]. destruct (wN (Ready unit l1 op1 k1)) eqn:E; auto. exfalso. apply (Hn u). exists l1, op1. split; [|left; eauto].
        destruct k1 as [?|m|m ?|?| |m ?|m ?| |]; try discriminate E; cbn in S0; subst; auto; destruct m; auto.
      - destruct S0 as (S0 & _ & _ & m & o & ->). exfalso. apply (Hn u). exists l1, op1. split; [|right; eauto]. cbn in S0. subst. destruct m; auto. }
    cbn [wfrag] in Hs. rewrite HL, HN in Hs. cbn in Hs. rewrite andb_false_r in Hs. cbn in Hs. injection Hs as <-. intros (l2 & k2 & H & _). cbn [thr] in H.
    rewrite nth_error_upd_same in H by (eapply nth_error_lt; eauto). discriminate.
  Qed.
End WM.

Section WR.
  Variable W D : nat.
  Hypothesis HW : 2 <= W.
  Hypothesis HD : D <= W.
  Notation P := (wrprog W D).
  Notation rst := (tstat wrk wrop unit nat).

  Definition rop_ok (op : wrop) (k : wrk) : Prop :=
    match k with RB op' => op' = op | RAcq op' => op' = op /\ op <> RUnlock | RGive => op = RTimed | RInc | RId | RCnt => op <> RUnlock | RClr | RRel => op = RUnlock end.
  (** the thread has the underlying mutex *)
  Definition has (l : nat) (k : wrk) : bool := match k with RId | RCnt | RClr | RRel => true | _ => 0 <? l end.
  Definition facts (s : wr) (t l : nat) (k : wrk) : Prop :=
    match k with
    | RB RUnlock => 0 < l <= D /\ rid s = S t /\ rcount s = l mod W
    | RB _ => l < D /\ (0 < l -> rid s = S t /\ rcount s = l mod W) /\ (l = 0 -> rid s <> S t)
    | RInc => 0 < l < D /\ rid s = S t /\ rcount s = l mod W
    | RAcq _ | RGive => l = 0 /\ 0 < D /\ rid s <> S t
    | RId => l = 0 /\ 0 < D /\ rid s = 0
    | RCnt => l = 0 /\ 0 < D /\ rid s = S t
    | RClr => l = 1 /\ rid s = S t /\ rcount s = 0
    | RRel => l = 1 /\ rid s = 0
    end.
  Definition rstat (s : wr) (t : nat) (x : rst) : Prop :=
    match x with
    | Idle _ _ _ l => l <= D /\ (0 < l -> rid s = S t /\ rcount s = l mod W) /\ (l = 0 -> rid s <> S t)
    | Ready _ l op k => rop_ok op k /\ facts s t l k
    | Asleep l op _ k => rop_ok op k /\ facts s t l k /\ held s = true /\ exists op', k = RAcq op'
    | _ => False
    end.
  Definition wH (x : rst) : nat := match x with Idle _ _ _ l => b2n (0 <? l) | Ready _ l _ k | Asleep l _ _ k => b2n (has l k) | _ => 0 end.
  Lemma wH_wake x : wH (wake x) = wH x. Proof. destruct x; reflexivity. Qed.
  Record RInv (c : wrconf) : Prop := {
    r_st : forall t x, nth_error (thr c) t = Some x -> rstat (sh c) t x;
    r_h : sumw wH (thr c) = b2n (held (sh c));
    r_f : held (sh c) = false -> rid (sh c) = 0 }.

  Definition oH (l : nat) (op : wrop) (o : outcome wrk unit bool) : nat :=
    match o with ORet _ _ r => b2n (0 <? wrnext l op r) | OYield _ _ k | OSleep _ _ k => b2n (has l k) | _ => 0 end.
  Record rpost (t l : nat) (op : wrop) (k : wrk) (s s' : wr) (ns : list (notif unit)) (o : outcome wrk unit bool) : Prop := {
    q_o : match o with ORet _ _ r => rstat s' t (Idle wrk wrop unit (wrnext l op r)) | OYield _ _ k' => rstat s' t (Ready unit l op k') | OSleep _ cv k' => rstat s' t (Asleep l op cv k') | _ => False end;
    q_h : oH l op o + b2n (held s) = b2n (has l k) + b2n (held s');
    q_r : rid s' = rid s /\ rcount s' = rcount s \/ has l k = true /\ (rid s' = rid s \/ rid s' = 0 \/ rid s' = S t);
    q_w : held s' = held s \/ held s = false \/ In (NAll tt) ns;
    q_f : held s' = false -> rid s' = 0 }.

  Lemma r_frag_ok t e k s s' ns o op l : wrfrag W t e k s = (s', ns, o) -> rop_ok op k -> facts s t l k -> (has l k = true -> held s = true) -> (held s = false -> rid s = 0) -> rpost t l op k s s' ns o.
  Proof.
    assert (M1 : 1 mod W = 1) by (apply Nat.mod_small; lia).
    assert (MS : forall n, n < D -> S (n mod W) mod W = S n mod W) by (intros n Hn; rewrite (Nat.mod_small n W) by lia; reflexivity).
    assert (MP : forall n, 0 < n <= D -> match n mod W with 0 => W - 1 | S m => m end = (n - 1)).
    { intros n Hn. destruct (Nat.eq_dec n W) as [->|Hne]; [rewrite Nat.mod_same by lia; reflexivity|]. rewrite Nat.mod_small by lia. destruct n; lia. }
    assert (MP2 : forall n, 0 < n <= D -> (n - 1) mod W = n - 1) by (intros n Hn; apply Nat.mod_small; lia).
    intros Hf Hk Hx Hh H0. destruct s as [n i h]. cbn [rid rcount held] in *.
    assert (B : op <> RUnlock -> k = RB op -> (s', ns, o) = (MkR n i h, [], OYield unit bool (if i =? S t then RInc else RAcq op)) -> rpost t l op k (MkR n i h) s' ns o).
    { intros Hn -> E. inversion E; subst. assert (Hx' : l < D /\ (0 < l -> i = S t /\ n = l mod W) /\ (l = 0 -> i <> S t)) by (destruct op; auto; congruence). destruct Hx' as (Q1 & Q2 & Q3).
      destruct (Nat.eqb_spec i (S t)) as [->|Hi].
      - assert (Hl : 0 < l) by (destruct l; [exfalso; apply Q3; auto|lia]). destruct (Q2 Hl) as [_ ->]. constructor; cbn; auto.
      - assert (Hl : l = 0) by (destruct l; auto; exfalso; apply Hi, Q2; lia). subst l. constructor; cbn; auto. }
    destruct k as [op'| |op'| | | | |]; cbn [rop_ok facts has rid rcount held] in *; cbn [wrfrag rid rcount held] in Hf.
    - subst op'. destruct op; try (apply B; [discriminate|auto|auto]). clear B.
      destruct Hx as (Q1 & -> & ->). rewrite (MP l Q1) in Hf. assert (Hh' : h = true) by (apply Hh; apply Nat.ltb_lt; lia). subst h. inversion Hf; subst.
      assert (HL : (0 <? l) = true) by (apply Nat.ltb_lt; lia).
      destruct (Nat.eqb_spec (l - 1) 0) as [E|E].
      + assert (l = 1) by lia. subst l. constructor; cbn; auto.
      + assert (HL' : (0 <? l - 1) = true) by (apply Nat.ltb_lt; lia).
        constructor; cbn [rstat oH wrnext has rid rcount held]; auto; rewrite ?HL, ?HL'; auto; try discriminate. repeat split; try lia. symmetry. auto.
    - destruct Hx as (Q1 & -> & ->). inversion Hf; subst. assert (HL : (0 <? l) = true) by (apply Nat.ltb_lt; lia). rewrite (Hh HL).
      assert (HN : wrnext l op true = S l) by (destruct op; cbn; congruence).
      constructor; cbn [rstat oH has rid rcount held]; rewrite ?HN, ?HL; auto; try discriminate. repeat split; try lia. apply MS. lia.
    - destruct Hk as [-> Hn]. destruct Hx as (-> & Q1 & Q2). destruct h.
      + destruct op; try congruence; inversion Hf; subst; constructor; cbn; auto; repeat split; auto; try lia; eauto; try discriminate.
      + inversion Hf; subst. constructor; cbn; auto; discriminate.
    - destruct Hx as (-> & Q1 & Q2). subst op. inversion Hf; subst. constructor; cbn; auto. repeat split; auto; lia.
    - destruct Hx as (-> & Q1 & Q2). inversion Hf; subst. rewrite (Hh eq_refl) in *. constructor; cbn; auto; discriminate.
    - destruct Hx as (-> & Q1 & ->). inversion Hf; subst. rewrite (Hh eq_refl) in *. assert (HN : wrnext 0 op true = 1) by (destruct op; cbn; congruence).
      constructor; cbn [rstat oH has rid rcount held]; rewrite ?HN; auto; try discriminate. repeat split; auto; lia.
    - destruct Hx as (-> & -> & ->). subst op. inversion Hf; subst. rewrite (Hh eq_refl) in *. constructor; cbn; auto.
    - destruct Hx as (-> & ->). subst op. inversion Hf; subst. rewrite (Hh eq_refl) in *. constructor; cbn; auto. repeat split; auto; lia.
  Qed.

  Definition hasx (x : rst) : Prop := wH x = 1.
  Lemma facts_other s s' t x : wH x = 0 -> rid s' <> S t -> (rid s' = rid s -> True) -> rstat s t x -> (match x with Asleep _ _ _ _ => held s' = true | _ => True end) -> rstat s' t x.
  Proof.
    intros H0 Hn _ Hs Hh. destruct x as [l|l op k|l op cv k|l ns|]; cbn in H0, Hs |- *; auto.
    - destruct l; [|discriminate]. split; [lia|]. split; [lia|auto].
    - destruct Hs as [H1 H2]. split; auto. destruct k as [op'| |op'| | | | |]; cbn in H0, H2 |- *; try discriminate; try tauto.
      + destruct l; [|discriminate]. destruct op'; cbn in H2 |- *; repeat split; auto; lia.
      + destruct l; [lia|discriminate].
    - destruct Hs as (H1 & H2 & H3 & op' & ->). cbn in H2 |- *. split; auto. split; [tauto|]. split; eauto.
  Qed.
  Lemma wH_le x : wH x <= 1.
  Proof. destruct x as [l|l op k|l op cv k|l ns|]; cbn; auto; try (destruct l; auto); destruct k; cbn; auto. Qed.

  Lemma RInv_step c c' : RInv c -> stepcase P c c' -> RInv c'.
  Proof.
    intros [I1 I2 I3] Hs. destruct Hs as
     [t l op Ht Hp ->|t ps e l op k s' ns o thr' Ht Hfr Hd ->|t p l n ns thr' Ht Hd ->
     |t l op cv k Ht ->|t l op cv k k' Ht Hk ->|t l op cv k k' Ht Hk ->|t l op k k' Ht Hk ->]; try discriminate Hk.
    - pose proof (I1 _ _ Ht) as (Q1 & Q2 & Q3). pose proof (sumw_upd wH (Ready unit l op (RB op)) Ht) as E1. cbn in E1. cbn [pre wrprog] in Hp.
      constructor; cbn [sh thr start wrprog]; auto.
      + intros u x Hu. apply nth_error_upd in Hu as [(-> & -> & _)|(_ & Hu)]; [|auto]. cbn. split; auto. destruct op; unfold wrpre in Hp; apply Nat.ltb_lt in Hp; repeat split; auto; apply Q2; auto.
      + unfold has in E1. lia.
    - pose proof (I1 _ _ Ht) as [Hk Hx]. pose proof (sumw_ge wH Ht) as G. cbn [wH] in G.
      assert (FP : rpost t l op k (sh c) s' ns o).
      { apply (@r_frag_ok t e k (sh c) s' ns o op l Hfr Hk Hx); auto. intros E. rewrite E in G. destruct (held (sh c)); auto. cbn in G, I2. lia. }
      destruct FP as [F0 F1 F2 F3 F4]. pose proof (deliver_all_woken Hd) as Hw.
      assert (Ht' : nth_error thr' t = Some (Ready unit l op k)) by (apply (woken_not_asleep Hw Ht); reflexivity).
      assert (EW : sumw wH thr' = sumw wH (thr c)) by (apply (woken_sumw_eq _ Hw); intros x _; apply wH_wake).
      pose proof (sumw_upd wH (fst (after P t l op o (hist c))) Ht') as U.
      assert (EO : wH (fst (after P t l op o (hist c))) = oH l op o) by (destruct o; cbn in F0 |- *; auto; contradiction).
      constructor; cbn [sh thr]; auto; [|cbn [wH] in U; lia].
      intros u x Hu. apply nth_error_upd in Hu as [(<- & -> & _)|(Hne & Hu)].
      { destruct o; cbn [after fst]; cbn in F0; try contradiction; exact F0. }
      destruct (nth_error (thr c) u) as [x0|] eqn:Hx0; [|apply nth_error_None in Hx0; assert (u < length thr') by (apply nth_error_Some; congruence); rewrite (woken_length Hw) in H; lia].
      pose proof (I1 _ _ Hx0) as S0.
      assert (Sx : rstat (sh c) u x /\ wH x = wH x0).
      { destruct (proj2 Hw _ _ Hx0) as [E'|[Ha E']]; rewrite E' in Hu; injection Hu as <-; auto. split; [|apply wH_wake]. destruct x0; try discriminate. cbn in S0 |- *. tauto. }
      destruct Sx as [Sx Wx].
      assert (HA : match x with Asleep _ _ _ _ => held s' = true | _ => True end).
      { destruct x as [| |l1 op1 [] k1| |]; auto. destruct Sx as (_ & _ & Hh & _). destruct F3 as [F3|[F3|F3]]; [congruence|congruence|]. exfalso.
        pose proof (deliver_all_NAll P tt ns ps _ Hd F3) as Hx'. pose proof (Forall_nth_error Hx' Hu) as Hy. discriminate. }
      destruct F2 as [[F2 F2']|[F2 F2']].
      + clear - F2 F2' Sx HA. destruct x as [l|l op k|l op cv k|l ns|]; cbn in Sx |- *; rewrite ?F2, ?F2'; auto.
        * destruct Sx as [S1 S2]. split; auto. destruct k as [[]| | | | | | |]; cbn in S2 |- *; rewrite ?F2, ?F2'; auto.
        * destruct Sx as (S1 & S2 & S3 & S4). split; auto. split; auto. destruct S4 as [op' ->]. cbn in S2 |- *. now rewrite F2.
      + pose proof (sumw_ge2 wH Hne Ht Hx0) as G2. cbn [wH] in G2. rewrite F2, I2 in G2.
        assert (W0 : wH x = 0) by (destruct (held (sh c)); cbn in G2; lia).
        assert (RN : rid (sh c) <> S u).
        { destruct x as [l1|l1 op1 k1|l1 op1 cv1 k1|l1 ns1|]; cbn in Sx, W0; try contradiction.
          - destruct l1; [tauto|discriminate].
          - destruct Sx as [_ S2]. destruct k1 as [op'| |op'| | | | |]; cbn in W0, S2; try discriminate; try tauto.
            + destruct l1; [|discriminate]. destruct op'; cbn in S2; try tauto; lia.
            + destruct l1; [lia|discriminate].
          - destruct Sx as (_ & S2 & _ & op' & ->). cbn in S2. tauto. }
        apply (@facts_other (sh c) s' u x); auto. destruct F2' as [->|[->| ->]]; auto; lia.
    - destruct (I1 _ _ Ht).
    - pose proof (I1 _ _ Ht) as (Hk & Hx & Hh & op' & ->). pose proof (sumw_upd wH (Ready unit l op (RAcq op')) Ht) as E1. cbn [wH] in E1.
      constructor; cbn [sh thr]; auto; [|lia]. intros u x Hu. apply nth_error_upd in Hu as [(<- & -> & _)|(_ & Hu)]; [|auto]. cbn. auto.
    - pose proof (I1 _ _ Ht) as (Hk' & Hx & Hh & op' & ->). cbn in Hk. destruct op'; try discriminate. injection Hk as <-.
      pose proof (sumw_upd wH (Ready unit l op RGive) Ht) as E1. cbn [wH has] in E1.
      constructor; cbn [sh thr]; auto; [|lia]. intros u x Hu. apply nth_error_upd in Hu as [(<- & -> & _)|(_ & Hu)]; [|auto]. cbn in Hk', Hx |- *. destruct Hk' as [<- _]. tauto.
  Qed.
  Lemma RInv_reachable n c : reachable P n wr0 0 c -> RInv c.
  Proof.
    apply (reachable_inv P RInv).
    - constructor; cbn [sh thr init wr0 held rid]; auto.
      + intros t x Hx. apply nth_error_In, repeat_spec in Hx. subst. cbn. repeat split; auto; lia.
      + now rewrite sumw_repeat, Nat.mul_0_r.
    - intros c0 c' HI Hs. eapply RInv_step; eauto.
  Qed.

  Lemma depth_has c t d : RInv c -> wr_depth c t d -> 0 < d -> exists x, nth_error (thr c) t = Some x /\ wH x = 1.
  Proof.
    intros HI (x & Hx & Hl) Hd. exists x. split; auto. pose proof (r_st HI _ Hx) as S0. assert (HL : (0 <? d) = true) by now apply Nat.ltb_lt.
    destruct x as [l|l op k|l op cv k|l ns|]; try contradiction; subst l; cbn [wH]; [now rewrite HL| |]; destruct k; unfold has; now rewrite ?HL.
  Qed.
  Lemma r_exclusive n c t t' d d' : reachable P n wr0 0 c -> wr_depth c t d -> wr_depth c t' d' -> 0 < d -> 0 < d' -> t = t'.
  Proof.
    intros Hr H1 H2 P1 P2. pose proof (RInv_reachable Hr) as HI. destruct (depth_has HI H1 P1) as (x & Hx & E1). destruct (depth_has HI H2 P2) as (y & Hy & E2).
    destruct (Nat.eq_dec t t') as [|Hne]; auto. exfalso. pose proof (sumw_ge2 wH Hne Hx Hy) as G. rewrite (r_h HI) in G. destruct (held (sh c)); cbn in G; lia.
  Qed.
  Lemma r_no_lost_wakeup n c t op : reachable P n wr0 0 c -> quiescent c -> wr_blocked c t op -> wr_depth c t 0 /\ exists t' d, wr_depth c t' d /\ 0 < d.
  Proof.
    intros Hr Hq (l & cv & k & Ht). pose proof (RInv_reachable Hr) as HI. pose proof (r_st HI _ Ht) as (Hk & Hx & Hh & op' & ->). cbn in Hx. destruct Hx as (-> & _ & _).
    split; [eexists; split; [eassumption|reflexivity]|]. assert (Hp : 0 < sumw wH (thr c)) by (rewrite (r_h HI), Hh; cbn; lia). apply sumw_pos in Hp as (u & x & Hu & Hp).
    destruct (quiescent_settled Hq Hu) as [(l & ->)|(l & op2 & cv2 & k2 & ->)].
    - exists u, l. split; [eexists; split; [eassumption|reflexivity]|]. cbn in Hp. destruct l; cbn in Hp; lia.
    - pose proof (r_st HI _ Hu) as (_ & Hy & _ & op3 & ->). cbn in Hy, Hp. destruct Hy as (-> & _). cbn in Hp. lia.
  Qed.
  Lemma r_free n c : reachable P n wr0 0 c -> quiescent c -> (held (sh c) = false <-> forall t d, wr_depth c t d -> d = 0).
  Proof.
    intros Hr Hq. pose proof (RInv_reachable Hr) as HI. split.
    - intros Hh t d Hd. destruct d; auto. exfalso. assert (Hp : 0 < S d) by lia. destruct (depth_has HI Hd Hp) as (x & Hx & E). pose proof (sumw_ge wH Hx) as G. rewrite (r_h HI), Hh in G. cbn in G. lia.
    - intros H. destruct (held (sh c)) eqn:Hh; auto. exfalso. assert (Hp : 0 < sumw wH (thr c)) by (rewrite (r_h HI), Hh; cbn; lia). apply sumw_pos in Hp as (u & x & Hu & Hp).
      destruct (quiescent_settled Hq Hu) as [(l & ->)|(l & op2 & cv2 & k2 & ->)].
      + assert (l = 0) by (apply (H u); eexists; split; [eassumption|reflexivity]). subst l. cbn in Hp. lia.
      + pose proof (r_st HI _ Hu) as (_ & Hy & _ & op3 & ->). cbn in Hy, Hp. destruct Hy as (-> & _). cbn in Hp. lia.
  Qed.
  (** a call of the owner is never blocked and never fails *)
  Lemma r_owner_call n c t l op k : reachable P n wr0 0 c -> nth_error (thr c) t = Some (Ready unit l op k) -> 0 < l -> op <> RUnlock ->
    forall ps e c', step P c (LRun wrop t ps e) = Some c' ->
    (k <> RInc /\ nth_error (thr c') t = Some (Ready unit l op RInc)) \/ (nth_error (thr c') t = Some (Idle wrk wrop unit (S l)) /\ hist c' = EDone t op true :: hist c).
  Proof.
    intros Hr Ht Hl Hn ps e c' Hs. pose proof (RInv_reachable Hr) as HI. pose proof (r_st HI _ Ht) as [Hk Hx]. cbn [step] in Hs. rewrite Ht in Hs. cbn [frag wrprog] in Hs.
    destruct (wrfrag W t e k (sh c)) as [[s' ns] o] eqn:Hf. destruct (deliver_all P ns ps (thr c)) as [thr'|] eqn:Hd; [|discriminate]. pose proof (deliver_all_woken Hd) as Hw.
    assert (Hlt : t < length thr') by (rewrite (woken_length Hw); eapply nth_error_lt; eauto).
    destruct k as [op'| |op'| | | | |]; cbn [rop_ok facts] in Hk, Hx; try congruence; try lia.
    - subst op'. assert (Hi : rid (sh c) = S t) by (destruct op; try tauto; congruence).
      assert (E : (s', ns, o) = (sh c, [], OYield unit bool RInc)).
      { rewrite <- Hf. cbn [wrfrag]. rewrite Hi, Nat.eqb_refl. destruct op; auto; congruence. }
      inversion E; subst. cbn in Hs. injection Hs as <-. cbn [thr]. left. split; [discriminate|]. now apply nth_error_upd_same.
    - cbn [wrfrag] in Hf. inversion Hf; subst. cbn in Hs. injection Hs as <-. cbn [thr hist]. right. split; auto. rewrite nth_error_upd_same by auto. destruct op; cbn; auto; congruence.
  Qed.
  Lemma r_owner_not_asleep n c t l op cv k : reachable P n wr0 0 c -> nth_error (thr c) t = Some (Asleep l op cv k) -> l = 0.
  Proof. intros Hr Ht. pose proof (RInv_reachable Hr) as HI. pose proof (r_st HI _ Ht) as (_ & Hx & _ & op' & ->). cbn in Hx. tauto. Qed.
End WR.
