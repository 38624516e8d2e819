(** * Proofs about the thread_v2 mutexes *)

From Verif Require Import MonWake V2_Model V2_Spec.
From Verif Require Export V2_Inv.

Section V2.
  Variable M : nat.
  Hypothesis HM : 1 <= M.
  Variable allow : sop -> bool.
  Notation P := (v2prog M allow false).
  Notation conf := (cfg v2s vk sop vres vcv mode).
  Notation tst := (tstat vk sop vcv mode).

  Lemma cnt_upd s l s' t x y :
    nth_error l t = Some x ->
    (forall S U G X, S + wS x = sumw wS l -> U + wU x = sumw wU l -> G + wG x = sumw wG l ->
       Cnt M s (S + wS x) (U + wU x) (G + wG x) (X + wX x) -> Cnt M s' (S + wS y) (U + wU y) (G + wG y) (X + wX y)) ->
    cnt M s l -> cnt M s' (upd l t y).
  Proof.
    intros Ht H Hc. unfold cnt in *.
    assert (E : forall w : tst -> nat, sumw w l = (sumw w l - w x) + w x /\ sumw w (upd l t y) = (sumw w l - w x) + w y).
    { intros w. pose proof (sumw_upd w y Ht). pose proof (sumw_ge w Ht). lia. }
    rewrite (proj1 (E wS)), (proj1 (E wU)), (proj1 (E wG)), (proj1 (E wX)) in Hc.
    rewrite (proj2 (E wS)), (proj2 (E wU)), (proj2 (E wG)), (proj2 (E wX)).
    apply H; auto; apply eq_sym, E.
  Qed.

  Lemma Inv_frag c t ps e l op k s' ns o thr' :
    Inv M allow c -> nth_error (thr c) t = Some (Ready vcv l op k) ->
    vfrag M t e k (sh c) = (s', ns, o) -> deliver_all P ns ps (thr c) = Some thr' ->
    Inv M allow (MkCfg s' (upd thr' t (fst (after P t l op o (hist c)))) (snd (after P t l op o (hist c)))).
  Proof.
    intros [Hst Hc Hloc] Ht Hfr Hd. pose proof (Forall_nth_error Hst Ht) as Hx. pose proof (Forall_nth_error Hloc Ht) as Hlx.
    pose proof (frag_nums M HM allow t e l op k (sh c) s' ns o Hx Hfr) as HN. cbv zeta in HN.
    pose proof (deliver_all_woken Hd) as Hw.
    destruct (woken_mode _ _ Hw) as (ES & EU & EG & EX).
    assert (Ht' : nth_error thr' t = Some (Ready vcv l op k)) by (apply (woken_not_asleep Hw Ht); reflexivity).
    assert (Hc' : cnt M (sh c) thr') by (unfold cnt; rewrite ES, EU, EG, EX; exact Hc).
    assert (Hst' : Forall (stat allow) thr') by (apply (woken_Forall _ Hw); [apply stat_wake|exact Hst]).
    assert (Hloc' : Forall (loc M (sh c)) thr') by (apply (woken_Forall _ Hw); [intros; apply loc_wake; auto|exact Hloc]).
    rewrite (after_y M allow).
    assert (E : forall w : tst -> nat, sumw w thr' = (sumw w thr' - w (Ready vcv l op k)) + w (Ready vcv l op k)).
    { intros w. pose proof (sumw_ge w Ht'). lia. }
    pose proof Hc' as Hc2. unfold cnt in Hc2. rewrite (E wS), (E wU), (E wG), (E wX) in Hc2.
    destruct (HN _ _ _ _ Hc2 Hlx) as (Hy & _ & Hly & Hmono & _).
    constructor; cbn [sh thr hist].
    - apply Forall_upd; auto.
    - eapply cnt_upd; [exact Ht'| |exact Hc']. intros S U G X _ _ _ HC. destruct (HN S U G X HC Hlx) as (_ & HC1 & _). exact HC1.
    - apply Forall_forall. intros y Hin. apply In_nth_error in Hin as [i Hi].
      apply nth_error_upd in Hi as [(<- & -> & _)|(Hne & Hi)]; [exact Hly|].
      pose proof (Forall_nth_error Hloc' Hi) as Hl. unfold loc in *.
      assert (HG : at2 y = true -> v_nr s' <= v_nr (sh c)).
      { intros Ha. apply Hmono. pose proof (sumw_ge2 wG Hne Ht' Hi). unfold wG in H at 2. rewrite Ha in H. lia. }
      unfold at2 in HG. destruct (kof y) as [[| | |op' k'|op' k'|]|]; auto; destruct op'; auto; specialize (HG eq_refl); lia.
  Qed.

  Lemma Inv_step c c' : Inv M allow c -> stepcase P c c' -> Inv M allow c'.
  Proof.
    intros HI Hs. pose proof HI as [Hst Hc Hloc]. destruct Hs as
     [t l op Ht Hp ->|t ps e l op k s' ns o thr' Ht Hfr Hd ->|t p l n ns thr' Ht Hd ->
     |t l op cv k Ht ->|t l op cv k k' Ht Hk ->|t l op cv k k' Ht Hk ->|t l op k k' Ht Hk ->].
    - simpl in Hp. apply andb_prop in Hp as [Ha Hm].
      assert (Hl : l = s_from op) by (destruct l, (s_from op); simpl in Hm; congruence).
      constructor; cbn [sh thr hist].
      + apply Forall_upd; auto. simpl. auto.
      + eapply cnt_upd; [exact Ht| |exact Hc]. intros S U G X _ _ _ HC. exact HC.
      + apply Forall_upd; auto. exact I.
    - eapply Inv_frag with (e := e); eauto.
    - destruct (Forall_nth_error Hst Ht).
    - pose proof (Forall_nth_error Hst Ht) as Hx. pose proof (Forall_nth_error Hloc Ht) as Hl. simpl in Hx.
      constructor; cbn [sh thr hist].
      + apply Forall_upd; auto. simpl. tauto.
      + eapply cnt_upd; [exact Ht| |exact Hc]. intros S U G X _ _ _ HC. exact HC.
      + apply Forall_upd; auto.
    - pose proof (Forall_nth_error Hst Ht) as Hx. pose proof (Forall_nth_error Hloc Ht) as Hl. simpl in Hx.
      cbn [on_timeout v2prog] in Hk.
      destruct Hx as (-> & Ha & Hko & Hcv). destruct k as [|op'| |op' n| |]; simpl in Hk; try discriminate; simpl in Hko;
        (destruct (s_timed op') eqn:Htm; [|discriminate]); injection Hk as <-.
      + destruct Hko as (-> & Hg). constructor; cbn [sh thr hist]; [apply Forall_upd; simpl; auto| |apply Forall_upd; auto; exact I].
        eapply cnt_upd; [exact Ht| |exact Hc]. intros S U G X _ _ _ HC. exact HC.
      + destruct Hko as (-> & Hg). constructor; cbn [sh thr hist]; [apply Forall_upd; simpl; auto| |apply Forall_upd; auto].
        eapply cnt_upd; [exact Ht| |exact Hc]. intros S U G X _ _ _ HC. exact HC.
    - cbn [on_intr v2prog] in Hk. destruct k; discriminate.
    - cbn [on_intr v2prog] in Hk. destruct k; discriminate.
  Qed.

  Lemma Inv_reachable n c : reachable P n v2_new MNone c -> Inv M allow c.
  Proof.
    apply (reachable_inv P (Inv M allow)).
    - constructor; cbn [sh thr init].
      + apply Forall_forall. intros x Hx. apply repeat_spec in Hx. subst. exact I.
      + unfold cnt. rewrite !sumw_repeat. unfold wS, wU, wG, wX. simpl. rewrite ?Nat.mul_0_r. constructor; simpl; auto; lia.
      + apply Forall_forall. intros x Hx. apply repeat_spec in Hx. subst. exact I.
    - intros c0 c' HI Hs. eapply Inv_step; eauto.
  Qed.

  Lemma owns_lm (c : conf) t m : v_owns c t m -> exists x, nth_error (thr c) t = Some x /\ lmode x = m.
  Proof. intros (x & Hx & H). exists x. split; auto. destruct x; simpl; tauto. Qed.

  Lemma no_crash n c t : reachable P n v2_new MNone c -> nth_error (thr c) t <> Some (Crashed vk sop vcv mode).
  Proof. intros Hr Ht. destruct (Inv_reachable _ _ Hr) as [Hst _ _]. apply (Forall_nth_error Hst Ht). Qed.

  Lemma exclusion n c t1 t2 m : reachable P n v2_new MNone c -> t1 <> t2 ->
    (v_owns c t1 MX -> v_owns c t2 m -> m = MNone) /\ (v_owns c t1 MUp -> v_owns c t2 m -> m = MNone \/ m = MSh).
  Proof.
    intros Hr Hne. destruct (Inv_reachable _ _ Hr) as [_ Hc _]. split; intros H1 H2;
      destruct (owns_lm _ _ _ H1) as (x1 & Hx1 & E1); destruct (owns_lm _ _ _ H2) as (x2 & Hx2 & E2);
      pose proof (sumw_ge2 wS Hne Hx1 Hx2); pose proof (sumw_ge2 wU Hne Hx1 Hx2); pose proof (sumw_ge2 wG Hne Hx1 Hx2);
      pose proof (sumw_ge2 wX Hne Hx1 Hx2);
      destruct Hc as [Hwe Hnw Hug Hnu Hwu Hnr Hmax Hx]; unfold wS, wU, wG, wX, tr, fa in *; rewrite E1, E2 in *;
      destruct (v_we (sh c)), (v_ug (sh c)), (at2 x1), (at2 x2), m; auto; exfalso; lia.
  Qed.

  Lemma upgrade_atomic n c u t m op : reachable P n v2_new MNone c -> t <> u -> op = SUpToX \/ op = STimedUpToX -> v_inside c u op ->
    v_owns c t m -> m = MNone \/ m = MSh.
  Proof.
    intros Hr Hne Hop Hin Ho. assert (Hu : v_owns c u MUp).
    { destruct (Inv_reachable _ _ Hr) as [Hst _ _]. destruct Hin as (l & [(k & Hk)|(cv & k & Hk)]);
        pose proof (Forall_nth_error Hst Hk) as (Hl & _); eexists; (split; [exact Hk|rewrite Hl; destruct Hop as [-> | ->]; reflexivity]). }
    exact (proj2 (exclusion n c u t m Hr (not_eq_sym Hne)) Hu Ho).
  Qed.

  Lemma field n c : reachable P n v2_new MNone c -> v_nr (sh c) <= M.
  Proof. intros Hr. destruct (Inv_reachable _ _ Hr) as [_ [] _]. auto. Qed.

  Lemma v2_direct : direct P.
  Proof.
    intros t e k s s' ns o. cbn [frag v2prog]. unfold vfrag, v_gate1, v_enter, v_gate2.
    destruct k as [op|op|op|op kk|op kk|]; try destruct op; intros H;
      repeat match type of H with
      | context [if ?b then _ else _] => destruct b
      end; inversion H; subst; auto.
  Qed.

  Lemma comes_to_rest n c : reachable P n v2_new MNone c ->
    exists ls c', run P c ls = Some c' /\ quiescent c' /\
      Forall (fun lb => match lb with LRun _ _ _ _ => True | _ => False end) ls.
  Proof.
    apply (settles (P:=P) (n:=n) (s0:=v2_new) (l0:=MNone) tt v2_direct). intros c' Hr Hin.
    apply In_nth_error in Hin as [i Hi]. eapply no_crash; eauto.
  Qed.
End V2.

(** ** Progress: programs without timed attempts at exclusive ownership, with at most [M] threads *)
Section Live.
  Variable M : nat.
  Hypothesis HM : 1 <= M.
  Variable allow : sop -> bool.
  Hypothesis Hallow : forall op, allow op = true -> untimed_x op = true.
  Variable n : nat.
  Hypothesis HnM : n <= M.
  Notation P := (v2prog M allow false).
  Notation conf := (cfg v2s vk sop vres vcv mode).
  Notation tst := (tstat vk sop vcv mode).

  Lemma deliver_nums ns ps l l' :
    Forall (stat allow) l -> deliver_all P ns ps l = Some l' ->
    ns = [] \/ ns = [NAll G1] \/ ns = [NOne G1] \/ ns = [NOne G2] ->
    (ns = [NAll G1] -> sumw wBs l' = 0 /\ sumw wBw l' = 0) /\
    (ns = [NOne G2] -> sumw wG l <= 1 -> sumw wA l <= sumw wG l -> sumw wA l' = 0).
  Proof.
    intros HF Hd Hns. pose proof (deliver_all_woken Hd) as Hw. split.
    - intros ->. pose proof (deliver_all_NAll P G1 _ _ _ Hd (or_introl eq_refl)) as Hno. rewrite Forall_forall in Hno.
      split; apply sumw_zero; intros x Hx; specialize (Hno x Hx); destruct x as [| |m op cv k| |]; simpl; auto;
        unfold not_on in Hno; simpl in Hno; destruct cv; simpl in *; try discriminate; destruct op; auto.
    - intros -> H1 H2. cbn [deliver_all] in Hd. destruct (deliver P (NOne G2) (hd 0 ps) l) as [l1|] eqn:Hd1; [|discriminate].
      injection Hd as <-. destruct (deliver_one_sumw wA Hd1) as [[-> Hno]|(x & Hp & Hs & -> & Heq)].
      + apply sumw_zero. intros x Hx. specialize (Hno x Hx). destruct x as [| |m op cv k| |]; simpl in *; auto. destruct cv; auto; discriminate.
      + destruct x as [| |m op cv k| |]; simpl in Hs; try discriminate. destruct cv; try discriminate. simpl in Heq. simpl. lia.
  Qed.

  Record Inv2 (c : conf) : Prop := { i2_inv : Inv M allow c; i2_cnt2 : cnt2 (sh c) (thr c); i2_len : length (thr c) = n }.

  Lemma cnt2_upd s l s' t x y :
    nth_error l t = Some x ->
    (forall S U G A Bs Bw, Cnt2 s (S + wS x) (U + wU x) (G + wG x) (A + wA x) (Bs + wBs x) (Bw + wBw x) ->
       Cnt2 s' (S + wS y) (U + wU y) (G + wG y) (A + wA y) (Bs + wBs y) (Bw + wBw y)) ->
    cnt2 s l -> cnt2 s' (upd l t y).
  Proof.
    intros Ht H Hc. unfold cnt2 in *.
    assert (E : forall w : tst -> nat, sumw w l = (sumw w l - w x) + w x /\ sumw w (upd l t y) = (sumw w l - w x) + w y).
    { intros w. pose proof (sumw_upd w y Ht). pose proof (sumw_ge w Ht). lia. }
    rewrite (proj1 (E wS)), (proj1 (E wU)), (proj1 (E wG)), (proj1 (E wA)), (proj1 (E wBs)), (proj1 (E wBw)) in Hc.
    rewrite (proj2 (E wS)), (proj2 (E wU)), (proj2 (E wG)), (proj2 (E wA)), (proj2 (E wBs)), (proj2 (E wBw)).
    apply H; auto.
  Qed.

  Lemma sum_le_len (l : list tst) : sumw wS l + sumw wU l <= length l.
  Proof.
    induction l as [|x l IH]; simpl; auto. assert (wS x + wU x <= 1); [|lia].
    unfold wS, wU. destruct (lmode x); try lia; destruct (at2 x); lia.
  Qed.
  Lemma sum_lt_len (l : list tst) t x : nth_error l t = Some x -> sumw wS l - wS x + (sumw wU l - wU x) < length l.
  Proof.
    revert t; induction l as [|y l IH]; intros [|t] H; simpl in *; try discriminate.
    - injection H as ->. pose proof (sum_le_len l). lia.
    - specialize (IH t H). pose proof (sumw_ge wS H). pose proof (sumw_ge wU H).
      assert (wS y + wU y <= 1) by (unfold wS, wU; destruct (lmode y); try lia; destruct (at2 y); lia). lia.
  Qed.

  Lemma a_le_g (l : list tst) : Forall (stat allow) l -> sumw wA l <= sumw wG l.
  Proof.
    induction 1 as [|x l Hx _ IH]; simpl; auto. assert (wA x <= wG x); [|lia].
    destruct x as [| |m op cv k| |]; simpl in *; try lia. destruct Hx as (_ & _ & _ & Hk).
    destruct cv; simpl; try lia. unfold wG, at2. simpl. destruct k; try tauto; try discriminate; auto.
  Qed.
  Lemma a_le_g_but (l : list tst) t x : Forall (stat allow) l -> nth_error l t = Some x -> wA x = 0 ->
    sumw wA l <= sumw wG l - wG x.
  Proof.
    intros HF Ht Hx. revert t Ht. induction HF as [|y l Hy HF IH]; intros [|t] H; simpl in *; try discriminate.
    - injection H as ->. pose proof (a_le_g l HF). lia.
    - specialize (IH t H). pose proof (sumw_ge wG H).
      assert (wA y <= wG y); [|lia].
      destruct y as [| |m op cv k| |]; simpl in *; try lia. destruct Hy as (_ & _ & _ & Hk).
      destruct cv; simpl; try lia. unfold wG, at2. simpl. destruct k; try tauto; try discriminate; auto.
  Qed.

  Lemma Inv2_step c c' : Inv2 c -> stepcase P c c' -> Inv2 c'.
  Proof.
    intros [HI Hc2 Hlen] Hs. constructor; [eapply Inv_step; eauto| |rewrite (step_length Hs); auto].
    pose proof HI as [Hst Hc Hloc]. destruct Hs as
     [t l op Ht Hp ->|t ps e l op k s' ns o thr' Ht Hfr Hd ->|t p l n0 ns thr' Ht Hd ->
     |t l op cv k Ht ->|t l op cv k k' Ht Hk ->|t l op cv k k' Ht Hk ->|t l op k k' Ht Hk ->]; cbn [sh thr hist].
    - eapply cnt2_upd; [exact Ht| |exact Hc2]. intros S U G A Bs Bw HC. exact HC.
    - pose proof (Forall_nth_error Hst Ht) as Hx. pose proof (Forall_nth_error Hloc Ht) as Hlx.
      pose proof (frag_nums M HM allow t e l op k (sh c) s' ns o Hx Hfr) as HN. cbv zeta in HN.
      pose proof (deliver_all_woken Hd) as Hw.
      destruct (woken_mode _ _ Hw) as (ES & EU & EG & EX). destruct (wake_mono M HM _ _ Hw) as (MA & MBs & MBw).
      assert (Ht' : nth_error thr' t = Some (Ready vcv l op k)) by (apply (woken_not_asleep Hw Ht); reflexivity).
      assert (Hc' : cnt M (sh c) thr') by (unfold cnt; rewrite ES, EU, EG, EX; exact Hc).
      rewrite (after_y M allow).
      assert (E : forall w : tst -> nat, sumw w thr' = (sumw w thr' - w (Ready vcv l op k)) + w (Ready vcv l op k) /\
                 sumw w (upd thr' t (v_y M allow t l op o)) = (sumw w thr' - w (Ready vcv l op k)) + w (v_y M allow t l op o)).
      { intros w. pose proof (sumw_ge w Ht'). pose proof (sumw_upd w (v_y M allow t l op o) Ht'). lia. }
      pose proof Hc' as HcC. unfold cnt in HcC. rewrite (proj1 (E wS)), (proj1 (E wU)), (proj1 (E wG)), (proj1 (E wX)) in HcC.
      destruct (HN _ _ _ _ HcC Hlx) as (_ & _ & _ & _ & Hns & HC2).
      destruct (deliver_nums ns ps (thr c) thr' Hst Hd Hns) as (Hall & Huc).
      unfold cnt2 in *. rewrite (proj2 (E wS)), (proj2 (E wU)), (proj2 (E wG)), (proj2 (E wA)), (proj2 (E wBs)), (proj2 (E wBw)).
      rewrite <- ES, <- EU, <- EG in Hc2. rewrite (proj1 (E wS)), (proj1 (E wU)), (proj1 (E wG)) in Hc2.
      eapply HC2; [|exact Hc2|lia|lia|lia| | | |].
      + destruct Hx as (_ & Ha & _). specialize (Hallow op Ha). destruct op; simpl in *; auto; discriminate.
      + intros En. specialize (Hall En). lia.
      + intros En. specialize (Huc En). destruct Hc as [Hwe Hnw _ _ _ _ _ _]. pose proof (a_le_g _ Hst).
        unfold tr, fa in *. destruct (v_we (sh c)); [specialize (Hwe I)|specialize (Hnw I)]; lia.
      + rewrite (proj1 (E wA)).
        assert (HstF : Forall (stat allow) thr') by (apply (woken_Forall _ Hw); [apply stat_wake|exact Hst]).
        pose proof (a_le_g_but thr' t _ HstF Ht' eq_refl). simpl. lia.
      + pose proof (sum_lt_len _ _ _ Ht'). rewrite (woken_length Hw) in H. lia.
    - destruct (Forall_nth_error Hst Ht).
    - eapply cnt2_upd; [exact Ht| |exact Hc2]. intros S U G A Bs Bw [K1 K2 K3 K4 K5].
      pose proof (Forall_nth_error Hst Ht) as (_ & _ & _ & Hk).
      unfold tr in *. destruct (sh c) as [[|] [|] nr]; unfold wS, wU, wG, at2 in *; simpl in *; destruct k; try tauto; subst cv; destruct op; simpl in *; constructor; simpl in *; lia.
    - eapply cnt2_upd; [exact Ht| |exact Hc2]. intros S U G A Bs Bw [K1 K2 K3 K4 K5].
      pose proof (Forall_nth_error Hst Ht) as (_ & _ & _ & Hcv). cbn [on_timeout v2prog] in Hk.
      destruct k as [|op'| |op' nn| |]; simpl in Hk; try discriminate; subst cv;
        (destruct (s_timed op') eqn:Htm; [|discriminate]); injection Hk as <-;
        unfold tr in *; destruct (sh c) as [[|] [|] nr]; unfold wS, wU, wG, at2 in *; simpl in *; destruct op; simpl in *; constructor; simpl in *; lia.
    - cbn [on_intr v2prog] in Hk. destruct k; discriminate.
    - cbn [on_intr v2prog] in Hk. destruct k; discriminate.
  Qed.

  Lemma Inv2_reachable c : reachable P n v2_new MNone c -> Inv2 c.
  Proof.
    apply (reachable_inv P Inv2).
    - constructor; [eapply Inv_reachable; auto; exists []; reflexivity| |apply repeat_length].
      unfold cnt2; cbn [sh thr init]. rewrite !sumw_repeat. unfold wS, wU, wG, wA, wBs, wBw. simpl. rewrite ?Nat.mul_0_r. constructor; simpl; lia.
    - intros c0 c' HI Hs. eapply Inv2_step; eauto.
  Qed.

  Lemma lm_owns c t x : reachable P n v2_new MNone c -> nth_error (thr c) t = Some x -> v_owns c t (lmode x).
  Proof.
    intros Hr Ht. destruct (Inv2_reachable _ Hr) as [[Hst _ _] _ _]. pose proof (Forall_nth_error Hst Ht) as Hx.
    exists x. split; auto. destruct x; simpl in *; tauto.
  Qed.

  Definition wO (x : tst) : nat := wS x + wU x + wX x.
  Lemma wO_sum l : sumw wO l = sumw wS l + sumw wU l + sumw wX l.
  Proof. induction l; simpl; auto. unfold wO at 1. lia. Qed.

  Lemma owner c t op cv k : reachable P n v2_new MNone c -> quiescent c ->
    nth_error (thr c) t = Some (Asleep (s_from op) op cv k) -> op <> STimedShToUp -> 0 < sumw wO (thr c) ->
    exists t' m, t' <> t /\ v_owns c t' m /\ m <> MNone /\ forall op', v_blocked c t' op' -> op' = STimedShToUp.
  Proof.
    intros Hr Hq Ht Hop Hp. destruct (Inv2_reachable _ Hr) as [[Hst _ _] _ _].
    destruct (sumw_pos wO Hp) as (j & x & Hj & Hx).
    assert (Hz : forall op0 l0 cv0 k0 j0, nth_error (thr c) j0 = Some (Asleep l0 op0 cv0 k0) -> 0 < wO (Asleep l0 op0 cv0 k0) -> op0 = STimedShToUp).
    { intros op0 l0 cv0 k0 j0 H0 Hw. pose proof (Forall_nth_error Hst H0) as (-> & Ha & Hko & Hcv). apply Hallow in Ha.
      unfold wO, wS, wU, wX, at2 in Hw. simpl in Hw.
      destruct k0; try tauto; destruct Hko as [-> Hg]; destruct op0; simpl in *; try discriminate; try lia; auto. }
    exists j, (lmode x). split; [|split; [eapply lm_owns; eauto|split]].
    - intros ->. rewrite Ht in Hj. injection Hj as <-. eapply Hop, Hz; eauto.
    - intros E. unfold wO, wS, wU, wX in Hx. rewrite E in Hx. simpl in Hx. lia.
    - intros op' (l' & cv' & k' & Hb). rewrite Hb in Hj. injection Hj as <-. eapply Hz; eauto.
  Qed.

  Lemma bit_held c : reachable P n v2_new MNone c -> quiescent c -> v_we (sh c) = true -> 0 < sumw wO (thr c).
  Proof.
    intros Hr Hq E. destruct (Inv2_reachable _ Hr) as [[Hst [Hwe _ _ _ _ _ _ _] _] [Keq _ Ka _ _] _].
    rewrite wO_sum. rewrite E in Hwe. specialize (Hwe I). destruct (Nat.eq_dec (sumw wX (thr c)) 0) as [Z|NZ]; [|lia].
    assert (HG : 0 < sumw wG (thr c)) by lia. destruct (sumw_pos wG HG) as (j & y & Hj & Hy).
    enough (0 < v_nr (sh c)) by lia. apply Ka. pose proof (sumw_ge wA Hj). enough (wA y = 1) by lia.
    destruct (quiescent_settled Hq Hj) as [(l' & ->)|(l' & op2 & cv' & k' & ->)]; [unfold wG in Hy; simpl in Hy; lia|].
    pose proof (Forall_nth_error Hst Hj) as (_ & _ & _ & Hk'). unfold wG, at2 in Hy. simpl in Hy.
    destruct k'; try tauto; try lia. subst cv'. reflexivity.
  Qed.

  Lemma no_lost_wakeup c t op : reachable P n v2_new MNone c -> quiescent c -> v_blocked c t op -> op <> STimedShToUp ->
    exists t' m, t' <> t /\ v_owns c t' m /\ m <> MNone /\ forall op', v_blocked c t' op' -> op' = STimedShToUp.
  Proof.
    intros Hr Hq (l & cv & k & Ht) Hop. destruct (Inv2_reachable _ Hr) as [[Hst Hc _] Hc2 _].
    pose proof (Forall_nth_error Hst Ht) as Hx. simpl in Hx. destruct Hx as (-> & Ha & Hko & Hcv).
    eapply owner; eauto. destruct (v_we (sh c)) eqn:E; [eapply bit_held; eauto|].
    rewrite wO_sum. destruct Hc as [_ _ Hug _ _ _ _ _]. destruct Hc2 as [Keq Kag Ka Kbs Kbw]. rewrite E in *.
    pose proof (sumw_ge wA Ht). pose proof (sumw_ge wBs Ht). pose proof (sumw_ge wBw Ht).
    destruct k; try tauto; subst cv; simpl in *; [|lia]. unfold tr in *.
    destruct op; simpl in *; try lia; destruct (v_ug (sh c)); try lia; intuition lia.
  Qed.

  Lemma reader_held_back c t op : reachable P n v2_new MNone c -> quiescent c -> v_blocked c t op -> op = SLockSh \/ op = STimedLockSh ->
    exists t', t' <> t /\ (v_owns c t' MX \/ v_blocked c t' SLock \/ v_blocked c t' SUpToX).
  Proof.
    intros Hr Hq (l & cv & k & Ht) Hop. destruct (Inv2_reachable _ Hr) as [[Hst Hc _] Hc2 _].
    pose proof (Forall_nth_error Hst Ht) as Hx. simpl in Hx. destruct Hx as (-> & Ha & Hko & Hcv).
    assert (Hk : k = VG1 op /\ cv = G1).
    { destruct k; try tauto; destruct Hko as [-> Hg]; auto. destruct Hop as [-> | ->]; discriminate. }
    destruct Hk as [-> ->]. destruct Hc as [Hwe _ _ _ _ _ _ _]. destruct Hc2 as [Keq Kag Ka Kbs Kbw].
    pose proof (sumw_ge wBs Ht) as Hge. assert (Hb : 0 < sumw wBs (thr c)) by (destruct Hop as [-> | ->]; simpl in Hge; lia).
    specialize (Hwe (Kbs Hb)).
    assert (Hp : 0 < sumw (fun x => wX x + wG x) (thr c)) by (rewrite sumw_plus; lia).
    destruct (sumw_pos _ Hp) as (j & y & Hj & Hy). exists j. split.
    - intros ->. rewrite Ht in Hj. injection Hj as <-. unfold wX, wG, at2 in Hy. simpl in Hy. destruct Hop as [-> | ->]; simpl in Hy; lia.
    - unfold wX, wG, at2 in Hy. destruct (quiescent_settled Hq Hj) as [(l' & ->)|(l' & op2 & cv' & k' & ->)].
      + left. eexists. split; [exact Hj|]. simpl in *. destruct l'; auto; lia.
      + right. pose proof (Forall_nth_error Hst Hj) as (-> & Ha' & Hko' & Hk'). apply Hallow in Ha'. simpl in Hy.
        destruct k'; try tauto; destruct Hko' as [-> Hg]; destruct op2; simpl in *; try discriminate; try lia; [left|right]; do 3 eexists; exact Hj.
  Qed.
End Live.

(** ** The reader count is exact when no timed conversion to exclusive ownership is used *)
Section Exact.
  Variable M : nat.
  Hypothesis HM : 1 <= M.
  Variable allow : sop -> bool.
  Hypothesis Hallow : forall op, allow op = true -> op <> STimedShToX /\ op <> STimedUpToX.
  Notation P := (v2prog M allow false).
  Notation conf := (cfg v2s vk sop vres vcv mode).
  Notation tst := (tstat vk sop vcv mode).

  Definition eqI (c : conf) : Prop := Inv M allow c /\ v_nr (sh c) = sumw wS (thr c) + sumw wU (thr c).

  Lemma frag_eq t e l op k s s' ns o :
    stat allow (Ready vcv l op k) -> vfrag M t e k s = (s', ns, o) ->
    let x := Ready vcv l op k in let y := v_y M allow t l op o in
    forall S U, v_nr s = S + wS x + (U + wU x) -> o = OUB vk vcv vres \/ v_nr s' = S + wS y + (U + wU y).
  Proof.
    intros Hst Hfr x y. subst x y. unfold v_y.
    destruct k as [op'|op'|op'|op' kk|op' kk|]; simpl in Hst;
      [destruct Hst as (-> & Ha & ->)|destruct Hst as (-> & Ha & -> & Hwt)|destruct Hst as (-> & Ha & -> & Hwt & Htm)
      |destruct Hst as (-> & Ha & -> & Hwt)|destruct Hst as (-> & Ha & -> & Hwt & Htm)|tauto]; destruct (Hallow op Ha) as [N1 N2];
      destruct op; try discriminate; try congruence;
      unfold vfrag, v_gate1, v_enter, v_gate2, v_pred1, v_upgraded, v_written in Hfr;
      destruct s as [[|] [|] n]; simpl in Hfr.
    all: repeat match type of Hfr with
           | context [?a =? ?b] => destruct (Nat.eqb_spec a b); simpl in Hfr
           | context [?a <? ?b] => destruct (Nat.ltb_spec a b); simpl in Hfr
           | context [if ?b then _ else _] => destruct b eqn:?
           end;
      inversion Hfr; subst; clear Hfr; unfold wS, wU, at2; simpl; intros S U HC; auto; right; lia.
  Qed.

  Lemma eqI_step c c' : eqI c -> stepcase P c c' -> eqI c'.
  Proof.
    intros [HI HE] Hs. split; [eapply Inv_step; eauto|]. pose proof HI as [Hst Hc Hloc]. destruct Hs as
     [t l op Ht Hp ->|t ps e l op k s' ns o thr' Ht Hfr Hd ->|t p l n ns thr' Ht Hd ->
     |t l op cv k Ht ->|t l op cv k k' Ht Hk ->|t l op cv k k' Ht Hk ->|t l op k k' Ht Hk ->]; cbn [sh thr hist].
    - pose proof (sumw_upd wS (Ready vcv l op (start P op)) Ht) as E1. pose proof (sumw_upd wU (Ready vcv l op (start P op)) Ht) as E2.
      unfold wS at 2 4 in E1; unfold wU at 2 4 in E2; unfold at2 in *; simpl in *. lia.
    - pose proof (Forall_nth_error Hst Ht) as Hx. pose proof (deliver_all_woken Hd) as Hw.
      destruct (woken_mode _ _ Hw) as (ES & EU & EG & EX).
      assert (Ht' : nth_error thr' t = Some (Ready vcv l op k)) by (apply (woken_not_asleep Hw Ht); reflexivity).
      pose proof (frag_eq _ _ _ _ _ _ _ _ _ Hx Hfr (sumw wS thr' - wS (Ready vcv l op k)) (sumw wU thr' - wU (Ready vcv l op k))) as HF.
      rewrite (after_y M allow).
      pose proof (sumw_ge wS Ht'). pose proof (sumw_ge wU Ht').
      pose proof (sumw_upd wS (v_y M allow t l op o) Ht'). pose proof (sumw_upd wU (v_y M allow t l op o) Ht').
      destruct HF as [-> |HF]; [lia| |lia].
      pose proof (frag_nums M HM allow t e l op k (sh c) s' ns _ Hx Hfr) as HN. cbv zeta in HN.
      assert (E : forall w : tst -> nat, sumw w (thr c) = (sumw w (thr c) - w (Ready vcv l op k)) + w (Ready vcv l op k)).
      { intros w. pose proof (sumw_ge w Ht). lia. }
      unfold cnt in Hc. rewrite (E wS), (E wU), (E wG), (E wX) in Hc.
      destruct (HN _ _ _ _ Hc (Forall_nth_error Hloc Ht)) as ([] & _).
    - destruct (Forall_nth_error Hst Ht).
    - pose proof (sumw_upd wS (Ready vcv l op k) Ht) as E1. pose proof (sumw_upd wU (Ready vcv l op k) Ht) as E2.
      unfold wS at 2 4 in E1; unfold wU at 2 4 in E2; unfold at2 in *; simpl in *. lia.
    - pose proof (sumw_upd wS (Ready vcv l op k') Ht) as E1. pose proof (sumw_upd wU (Ready vcv l op k') Ht) as E2.
      cbn [on_timeout v2prog] in Hk.
      destruct k as [|op'| |op' nn| |]; simpl in Hk; try discriminate; (destruct (s_timed op') eqn:Htm; [|discriminate]); injection Hk as <-;
      unfold wS at 2 4 in E1; unfold wU at 2 4 in E2; unfold at2 in *; simpl in *; lia.
    - cbn [on_intr v2prog] in Hk. destruct k; discriminate.
    - cbn [on_intr v2prog] in Hk. destruct k; discriminate.
  Qed.

  Lemma count_exact n c : reachable P n v2_new MNone c -> v_nr (sh c) = sumw wS (thr c) + sumw wU (thr c).
  Proof.
    intros Hr. assert (eqI c) as [_ H]; auto. revert c Hr. apply (reachable_inv P eqI).
    - split; [eapply Inv_reachable; auto; exists []; reflexivity|]. cbn [sh thr init]. rewrite !sumw_repeat. unfold wS, wU. simpl. lia.
    - intros c0 c' HI Hs. eapply eqI_step; eauto.
  Qed.

  Lemma all_released n c : reachable P n v2_new MNone c -> (forall t x, nth_error (thr c) t = Some x -> x = Idle vk sop vcv MNone) ->
    sh c = v2_new.
  Proof.
    intros Hr Hid. pose proof (count_exact _ _ Hr) as E. destruct (Inv_reachable M HM allow _ _ Hr) as [_ [Hwe _ Hug _ _ _ _ _] _].
    assert (Z : forall w : tst -> nat, w (Idle vk sop vcv MNone) = 0 -> sumw w (thr c) = 0).
    { intros w Hw. apply sumw_zero. intros x Hx. apply In_nth_error in Hx as [i Hi]. now rewrite (Hid i x Hi). }
    rewrite (Z wS), (Z wU) in E by reflexivity. rewrite (Z wX), (Z wG) in Hwe by reflexivity. rewrite (Z wU) in Hug by reflexivity.
    destruct (sh c) as [[|] [|] nr]; simpl in *; try (specialize (Hwe I); discriminate); try (specialize (Hug I); discriminate). subst. reflexivity.
  Qed.
End Exact.

(** A new reader is turned away only by an exclusive owner, a pending attempt at exclusive ownership, or a full count. *)
Lemma new_reader M allow n c : 1 <= M -> reachable (v2prog M allow false) n v2_new MNone c ->
  v_pred1 M STryLockSh (sh c) = false -> v_nr (sh c) = M \/ exists t, v_owns c t MX \/ exists op, wants_x op = true /\ v_inside c t op.
Proof.
  intros HM Hr H. simpl in H. destruct (Nat.eqb_spec (v_nr (sh c)) M); [auto|right]. rewrite andb_true_r in H.
  destruct (Inv_reachable M HM allow _ _ Hr) as [Hst [Hwe _ _ _ _ _ _ _] _]. destruct (v_we (sh c)); [|discriminate]. specialize (Hwe I).
  assert (Hp : 0 < sumw (fun x => wX x + wG x) (thr c)) by (rewrite sumw_plus; lia).
  destruct (sumw_pos _ Hp) as (j & y & Hj & Hy). exists j. unfold wX, wG, at2, kof in Hy. pose proof (Forall_nth_error Hst Hj) as Hx.
  destruct y as [l|l op k|l op cv k|l ns|]; simpl in Hx, Hy; try tauto.
  - left. eexists. split; [exact Hj|]. simpl. destruct l; auto; lia.
  - destruct l; try (left; eexists; split; [exact Hj|reflexivity]); right; exists op;
      (split; [|exists (s_from op); left; destruct Hx as (<- & _); eauto]);
      destruct Hx as (_ & _ & Hk); destruct k; simpl in Hk, Hy; try lia; (destruct Hk as (-> & Hg & _) || destruct Hk as (-> & Hg)); destruct op; auto; discriminate.
  - destruct l; try (left; eexists; split; [exact Hj|reflexivity]); right; exists op;
      (split; [|exists (s_from op); right; destruct Hx as (<- & _); eauto]);
      destruct Hx as (_ & _ & Hk & _); destruct k; simpl in Hk, Hy; try lia; (destruct Hk as (-> & Hg & _) || destruct Hk as (-> & Hg)); destruct op; auto; discriminate.
Qed.

Lemma try_refused M allow n c t c1 c2 : 1 <= M -> reachable (v2prog M allow false) n v2_new MNone c ->
  step (v2prog M allow false) c (LCall unit t STryLockSh) = Some c1 ->
  step (v2prog M allow false) c1 (LRun sop t [] tt) = Some c2 -> hist c2 = EDone t STryLockSh VFail :: hist c1 ->
  v_nr (sh c) = M \/ exists t', v_owns c t' MX \/ exists op, wants_x op = true /\ v_inside c t' op.
Proof.
  intros HM Hr H1 H2 Hh. apply (new_reader M allow n c HM Hr). destruct (v_pred1 M STryLockSh (sh c)) eqn:E; auto. exfalso.
  cbn [step] in H1. destruct (nth_error (thr c) t) as [x|] eqn:Ht; [|discriminate]. destruct x as [l| | | |]; try discriminate.
  destruct (pre _ l STryLockSh); [|discriminate]. injection H1 as <-. cbn [step thr sh hist] in H2.
  rewrite (nth_error_upd_same _ _ (nth_error_lt Ht)) in H2. cbn [frag v2prog start] in H2. cbn [vfrag] in H2. rewrite E in H2. cbn in H2.
  injection H2 as <-. cbn in Hh. congruence.
Qed.
