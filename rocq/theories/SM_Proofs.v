(** * Proofs about shared_mutex *)

From Verif Require Import MonWake SM_Model SM_Spec.
From Verif Require Export SM_Inv.

Section SM.
  Variable allow : sop -> bool.
  Hypothesis Hallow : sm_compatible allow.
  Notation P := (smprog allow).
  Notation conf := smconf.
  Notation tst := (tstat sk sop scv mode).

  Lemma after_y t l op o h : fst (after P t l op o h) = s_y allow t l op o.
  Proof. destruct o as [|? []| | |]; reflexivity. Qed.

  (** Nobody has upgrade ownership in a program that uses the timed conversion from shared to exclusive. *)
  Definition NU (c : conf) : Prop := allow STimedShToX = true -> Forall (fun x => lmode x <> MUp) (thr c).

  Lemma Inv_frag c t ps e l op k s' ns o thr' :
    Inv allow c -> NU c -> nth_error (thr c) t = Some (Ready scv l op k) ->
    sfrag t e k (sh c) = (s', ns, o) -> deliver_all P ns ps (thr c) = Some thr' ->
    Inv allow (MkCfg s' (upd thr' t (fst (after P t l op o (hist c)))) (snd (after P t l op o (hist c)))).
  Proof.
    intros [Hst Hc Hc2] Hnu Ht Hfr Hd. pose proof (Forall_nth_error Hst Ht) as Hx.
    destruct (frag_nums allow t e l op k (sh c) s' ns o Hx Hfr) as (Hns & Hop & HN).
    destruct (deliver_nums allow ns ps (thr c) thr' Hst Hd Hns) as (Hst' & Hw & Hall & Huc & Hxc).
    destruct (woken_mode _ _ Hw) as (ES & EU & EW & EX).
    destruct (wake_mono _ _ _ Hst Hw) as (MA & MBs & MBu & MSl). pose proof (rd_mono _ _ _ Hst Hw) as MRd. pose proof (wr_wake _ _ _ Hst Hw) as MSR.
    assert (Ht' : nth_error thr' t = Some (Ready scv l op k)) by (apply (woken_not_asleep Hw Ht); reflexivity).
    assert (Hc' : cnt (sh c) thr') by (unfold cnt; rewrite ES, EU, EW, EX; exact Hc).
    rewrite after_y.
    assert (Hnu' : op = STimedShToX -> sumw wU thr' = 0 /\ sumw wW thr' = 0).
    { intros ->. rewrite EU, EW. destruct Hx as (_ & Ha & _). specialize (Hnu Ha). rewrite Forall_forall in Hnu.
      split; apply sumw_zero; intros x Hin; specialize (Hnu x Hin); unfold wU, wW; destruct (lmode x); congruence. }
    assert (Hsy : stat allow (s_y allow t l op o)).
    { unfold cnt in Hc'.
      pose proof (sumw_ge wS Ht'). pose proof (sumw_ge wU Ht'). pose proof (sumw_ge wW Ht'). pose proof (sumw_ge wX Ht').
      destruct (HN (sumw wS thr' - wS (Ready scv l op k)) (sumw wU thr' - wU (Ready scv l op k))
         (sumw wW thr' - wW (Ready scv l op k)) (sumw wX thr' - wX (Ready scv l op k))) as (Hy & _); auto; [|intros E; destruct (Hnu' E); lia].
      rewrite !Nat.sub_add by auto. exact Hc'. }
    assert (Hcc : cnt s' (upd thr' t (s_y allow t l op o)) /\ cnt2 s' (upd thr' t (s_y allow t l op o))).
    { eapply (cnt_upd (sh c)); [exact Ht'| |exact Hc'].
      intros S U W X A Bs Bu Sl Rd HS HA HBs HBu HSl HRd HW HU HC.
      destruct (HN S U W X HC) as (_ & HC1 & HC2); [intros E; destruct (Hnu' E); lia|]. split; [exact HC1|].
      unfold cnt2 in Hc2. rewrite <- EW, <- HW in Hc2.
      assert (Hz : wA (Ready scv l op k) = 0 /\ wBs (Ready scv l op k) = 0 /\ wBu (Ready scv l op k) = 0 /\ wSl (Ready scv l op k) = 0)
        by (simpl; auto).
      destruct Hz as (Z1 & Z2 & Z3 & Z4).
      pose proof Hc as HcC. destruct HcC. pose proof Hc2 as Hc22. destruct Hc22.
      assert (HWW : sumw wA thr' <= W + wW (Ready scv l op k)) by lia.
      eapply HC2; [exact Hc2|lia|lia|lia|lia|lia|lia| | | | ].
      - intros Hne. specialize (Hall Hne). lia.
      - intros E. specialize (Huc E). lia.
      - intros Hin. destruct (Hxc Hin) as [Hz|[Hz|(j & x & Hj & HwS & kk & ->)]]; [left; lia|right; left; lia|].
        right; right. assert (j <> t).
        { intros ->. rewrite Ht' in Hj. injection Hj as _ -> _. apply (Hop Hin). reflexivity. }
        pose proof (sumw_ge2 wS H Hj Ht'). lia.
      - (* a sleeping upgrader other than this thread *)
        destruct (Nat.eq_dec (sumw wA thr') 0) as [Z|Hnz]; [lia|].
        assert (Hpos : 0 < sumw wA thr') by lia.
        destruct (sumw_pos wA (l:=thr') Hpos) as (j & y & Hj & Hy).
        assert (Hjt : j <> t).
        { intros ->. rewrite Ht' in Hj. injection Hj as <-. simpl in Hy. lia. }
        assert (HyW : wW y = 1).
        { pose proof (Forall_nth_error Hst' Hj) as Hsj. destruct y as [| |m op' cv k'| |]; simpl in Hy, Hsj; try lia.
          destruct Hsj as (-> & _ & _ & _ & ->). destruct op'; simpl in *; try lia. reflexivity. }
        pose proof (sumw_ge2 wW Hjt Hj Ht'). pose proof Hc' as [ ]. lia. }
    destruct Hcc. constructor; cbn [sh thr hist]; auto. apply Forall_upd; auto.
  Qed.

  Lemma Inv_step c c' : Inv allow c -> NU c -> stepcase P c c' -> Inv allow c'.
  Proof.
    intros HI Hnu Hs. pose proof HI as [Hst Hc Hc2]. destruct Hs as
     [t l op Ht Hp ->|t ps e l op k s' ns o thr' Ht Hfr Hd ->|t p l n ns thr' Ht Hd ->
     |t l op cv k Ht ->|t l op cv k k' Ht Hk ->|t l op cv k k' Ht Hk ->|t l op k k' Ht Hk ->];
     cbn [on_timeout on_intr smprog] in *; try discriminate.
    - simpl in Hp. apply andb_prop in Hp as [Ha Hm].
      assert (Hl : l = s_from op) by (destruct l, (s_from op); simpl in Hm; congruence).
      assert (Hcc : cnt (sh c) (upd (thr c) t (Ready scv l op (start P op))) /\ cnt2 (sh c) (upd (thr c) t (Ready scv l op (start P op)))).
      { eapply (cnt_upd (sh c)); [exact Ht| |exact Hc]. intros S U W X A Bs Bu Sl Rd HS HA HBs HBu HSl HRd HW HU HC.
        unfold cnt2 in Hc2. rewrite <- HA, <- HBs, <- HBu, <- HSl, <- HRd, <- HW in Hc2.
        subst l. destruct op; simpl in *; unfold wS, wU, wW, wX in *; simpl in *; auto. }
      destruct Hcc. constructor; cbn [sh thr hist]; auto. apply Forall_upd; auto. simpl. auto.
    - eapply Inv_frag; eauto.
    - exfalso. apply (Forall_nth_error Hst Ht).
    - (* spurious *)
      pose proof (Forall_nth_error Hst Ht) as Hx. simpl in Hx. destruct Hx as (-> & Hnx & Hwt & -> & ->).
      assert (Hcc : cnt (sh c) (upd (thr c) t (Ready scv (s_from op) op (KWait op))) /\ cnt2 (sh c) (upd (thr c) t (Ready scv (s_from op) op (KWait op)))).
      { eapply (cnt_upd (sh c)); [exact Ht| |exact Hc]. intros S U W X A Bs Bu Sl Rd HS HA HBs HBu HSl HRd HW HU HC.
        unfold cnt2 in Hc2. rewrite <- HA, <- HBs, <- HBu, <- HSl, <- HRd, <- HW in Hc2.
        destruct op; try discriminate; simpl in *; unfold wS, wU, wW, wX in *; simpl in *; (split; [exact HC|]);
          destruct (sh c) as [n [|] [|] [|]]; destruct Hc2; unfold tr, fa in *; constructor; simpl in *; lia. }
      destruct Hcc. constructor; cbn [sh thr hist]; auto. apply Forall_upd; auto. simpl. auto.
    - (* timeout *)
      pose proof (Forall_nth_error Hst Ht) as Hx. simpl in Hx. destruct Hx as (-> & Hnx & Hwt & -> & ->).
      simpl in Hk. destruct (s_timed op) eqn:Htm; [|discriminate]. injection Hk as <-.
      assert (Hcc : cnt (sh c) (upd (thr c) t (Ready scv (s_from op) op (KDead op))) /\ cnt2 (sh c) (upd (thr c) t (Ready scv (s_from op) op (KDead op)))).
      { eapply (cnt_upd (sh c)); [exact Ht| |exact Hc]. intros S U W X A Bs Bu Sl Rd HS HA HBs HBu HSl HRd HW HU HC.
        unfold cnt2 in Hc2. rewrite <- HA, <- HBs, <- HBu, <- HSl, <- HRd, <- HW in Hc2.
        destruct op; try discriminate; simpl in *; unfold wS, wU, wW, wX in *; simpl in *; (split; [exact HC|]);
          destruct (sh c) as [n [|] [|] [|]]; destruct Hc2; unfold tr, fa in *; constructor; simpl in *; lia. }
      destruct Hcc. constructor; cbn [sh thr hist]; auto. apply Forall_upd; auto. simpl. auto.
  Qed.

  Lemma NU_step c c' : Inv allow c -> NU c -> stepcase P c c' -> NU c'.
  Proof.
    intros [Hst _ _] Hnu Hs Ha. specialize (Hnu Ha).
    assert (Hno : forall op, allow op = true -> s_to op <> MUp).
    { intros op Hop E. destruct Hallow as [H|H]; [congruence|]. rewrite (H op E) in Hop. discriminate. }
    assert (Hu : forall y, lmode y <> MUp -> forall t thr', woken_rel (thr c) thr' -> Forall (fun x : tst => lmode x <> MUp) (upd thr' t y)).
    { intros y Hy t thr' Hw. apply Forall_upd; auto. apply (woken_Forall _ Hw); auto. intros x _. rewrite lm_wake. auto. }
    destruct Hs as
     [t l op Ht Hp ->|t ps e l op k s' ns o thr' Ht Hfr Hd ->|t p l n ns thr' Ht Hd ->
     |t l op cv k Ht ->|t l op cv k k' Ht Hk ->|t l op cv k k' Ht Hk ->|t l op k k' Ht Hk ->];
     cbn [on_timeout on_intr smprog thr] in *; try discriminate;
     pose proof (Forall_nth_error Hnu Ht) as Hl; pose proof (Forall_nth_error Hst Ht) as Hx; simpl in Hl;
     try (apply Forall_upd; auto; fail).
    - apply Hu; [|apply (deliver_all_woken Hd)]. rewrite after_y. destruct Hx as (_ & Hal & _).
      destruct o as [r|r ns'|cv' k'|k'|]; unfold s_y; simpl; auto; try congruence.
      + destruct r; auto.
      + destruct ns'; simpl; destruct r; auto.
    - destruct Hx.
  Qed.

  Lemma Inv_reachable n c : reachable P n sm_new MNone c -> Inv allow c /\ NU c.
  Proof.
    apply (reachable_inv P (fun c => Inv allow c /\ NU c)).
    - split.
      + constructor; cbn [sh thr init].
        * apply Forall_forall. intros x Hx. apply repeat_spec in Hx. subst. exact I.
        * unfold cnt. rewrite !sumw_repeat. unfold wS, wU, wW, wX. simpl. rewrite !Nat.mul_0_r. constructor; simpl; auto; lia.
        * unfold cnt2. rewrite !sumw_repeat. unfold wW. simpl. rewrite ?Nat.mul_0_r. constructor; simpl; lia.
      + intros _. apply Forall_forall. intros x Hx. apply repeat_spec in Hx. subst. discriminate.
    - intros c0 c' [HI Hn] Hs. split; [eapply Inv_step|eapply NU_step]; eauto.
  Qed.

  Lemma owns_lm (c : conf) t m : owns c t m -> exists x, nth_error (thr c) t = Some x /\ lmode x = m.
  Proof. intros (x & Hx & H). exists x. split; auto. destruct x; simpl; tauto. Qed.

  Lemma lm_owns n (c : conf) t x : reachable P n sm_new MNone c -> nth_error (thr c) t = Some x -> owns c t (lmode x).
  Proof.
    intros Hr Ht. destruct (Inv_reachable _ _ Hr) as [[Hst _ _] _]. pose proof (Forall_nth_error Hst Ht) as Hx.
    exists x. split; auto. destruct x; simpl in *; tauto.
  Qed.

  Lemma no_crash n c t : reachable P n sm_new MNone c -> nth_error (thr c) t <> Some (Crashed sk sop scv mode).
  Proof. intros Hr Ht. destruct (Inv_reachable _ _ Hr) as [[Hst _ _] _]. apply (Forall_nth_error Hst Ht). Qed.

  Lemma lm_sum x : wU x + wW x = match lmode x with MUp => 1 | _ => 0 end.
  Proof. unfold wU, wW. destruct (lmode x); auto. destruct (upw x); auto. Qed.

  Lemma exclusion n c t1 t2 m : reachable P n sm_new MNone c -> t1 <> t2 ->
    (owns c t1 MX -> owns c t2 m -> m = MNone) /\ (owns c t1 MUp -> owns c t2 m -> m = MNone \/ m = MSh).
  Proof.
    intros Hr Hne. destruct (Inv_reachable _ _ Hr) as [[_ Hc _] _]. split; intros H1 H2;
      destruct (owns_lm _ _ _ H1) as (x1 & Hx1 & E1); destruct (owns_lm _ _ _ H2) as (x2 & Hx2 & E2);
      pose proof (sumw_ge2 wS Hne Hx1 Hx2); pose proof (sumw_ge2 wU Hne Hx1 Hx2); pose proof (sumw_ge2 wW Hne Hx1 Hx2);
      pose proof (sumw_ge2 wX Hne Hx1 Hx2); pose proof (lm_sum x1); pose proof (lm_sum x2);
      destruct Hc as [_ Hone Hx _ _ _ _]; rewrite E1 in *; rewrite E2 in *; unfold wS, wX in *; rewrite E1, E2 in *.
    - destruct m; auto; exfalso; lia.
    - destruct m; auto; exfalso; lia.
  Qed.

  Lemma upgrade_atomic n c u t m : reachable P n sm_new MNone c -> t <> u -> s_inside c u SUpToX -> owns c t m ->
    m = MNone \/ m = MSh.
  Proof.
    intros Hr Hne Hin Ho. assert (Hu : owns c u MUp).
    { destruct (Inv_reachable _ _ Hr) as [[Hst _ _] _]. destruct Hin as (l & [(k & Hk)|(cv & k & Hk)]);
        pose proof (Forall_nth_error Hst Hk) as (Hl & _); eexists; (split; [exact Hk|exact Hl]). }
    destruct (exclusion n c u t m Hr (not_eq_sym Hne)) as [_ H]. auto.
  Qed.

  (** ** Quiescence *)
  Lemma q_rd c : quiescent c -> Inv allow c -> sumw wRd (thr c) = 0.
  Proof.
    intros Hq _. apply sumw_zero. intros x Hx. apply In_nth_error in Hx as [i Hi].
    destruct (quiescent_settled Hq Hi) as [(l & ->)|(l & op & cv & k & ->)]; reflexivity.
  Qed.
  Lemma q_w c : quiescent c -> Inv allow c -> sumw wW (thr c) = sumw wA (thr c).
  Proof.
    intros Hq [Hst _ _]. apply sumw_ext. intros x Hx. apply In_nth_error in Hx as [i Hi].
    pose proof (Forall_nth_error Hst Hi) as Hs.
    destruct (quiescent_settled Hq Hi) as [(l & ->)|(l & op & cv & k & ->)]; simpl in *.
    - unfold wW. simpl. destruct l; auto.
    - destruct Hs as (-> & _ & Hw & _ & ->). unfold wW. simpl. destruct op; simpl in *; auto; discriminate.
  Qed.
  (** At quiescence an exclusive flag means an exclusive owner. *)
  Lemma q_x c : quiescent c -> Inv allow c -> tr (s_excl (sh c)) -> sumw wX (thr c) = 1.
  Proof.
    intros Hq HI Hx. pose proof (q_w _ Hq HI) as HW. destruct HI as [_ [_ Hone _ Hu Hw H0 _] [_ Ha _ _ _]].
    unfold tr, fa in *. destruct (s_excl (sh c)); try tauto. destruct (s_up (sh c)); simpl in *; lia.
  Qed.
  Lemma pos_owner n c (w : tst -> nat) : reachable P n sm_new MNone c -> 0 < sumw w (thr c) ->
    exists t x, nth_error (thr c) t = Some x /\ 0 < w x /\ owns c t (lmode x).
  Proof.
    intros Hr Hp. destruct (sumw_pos w Hp) as (t & x & Ht & Hx). exists t, x. repeat split; auto. eapply lm_owns; eauto.
  Qed.
  Lemma ownS n c : reachable P n sm_new MNone c -> 0 < sumw wS (thr c) -> ~ nobody c MSh.
  Proof.
    intros Hr Hp Hn. destruct (pos_owner _ _ _ Hr Hp) as (t & x & Ht & Hx & Ho). apply (Hn t).
    unfold wS in Hx. destruct (lmode x); auto; lia.
  Qed.
  Lemma ownX n c : reachable P n sm_new MNone c -> 0 < sumw wX (thr c) -> ~ nobody c MX.
  Proof.
    intros Hr Hp Hn. destruct (pos_owner _ _ _ Hr Hp) as (t & x & Ht & Hx & Ho). apply (Hn t).
    unfold wX in Hx. destruct (lmode x); auto; lia.
  Qed.
  Lemma ownU n c : reachable P n sm_new MNone c -> 0 < sumw wU (thr c) + sumw wW (thr c) -> ~ nobody c MUp.
  Proof.
    intros Hr Hp Hn. rewrite <- sumw_plus in Hp.
    destruct (pos_owner _ _ _ Hr Hp) as (t & x & Ht & Hx & Ho). apply (Hn t).
    pose proof (lm_sum x). destruct (lmode x); auto; lia.
  Qed.

  Lemma writer_from c : quiescent c -> Inv allow c -> 0 < sumw wSl (thr c) + sumw wRd (thr c) -> writer_waiting c.
  Proof.
    intros Hq HI Hp. rewrite (q_rd _ Hq HI), Nat.add_0_r in Hp. destruct (sumw_pos wSl Hp) as (t & x & Ht & Hx).
    exists t. destruct x as [| |l op cv k| |]; simpl in Hx; try lia. unfold s_blocked.
    destruct op; try lia; [left|right]; eauto.
  Qed.

  Lemma no_lost_wakeup n c t op : reachable P n sm_new MNone c -> quiescent c -> s_blocked c t op -> lock_wait op = true ->
    ~ s_available c op.
  Proof.
    intros Hr Hq (l & cv & k & Ht) Hop Hav. destruct (Inv_reachable _ _ Hr) as [HI _].
    pose proof HI as [Hst HC HC2]. pose proof (Forall_nth_error Hst Ht) as Hx. simpl in Hx.
    pose proof (q_w _ Hq HI) as HW. pose proof (q_rd _ Hq HI) as HR. pose proof (q_x _ Hq HI) as HX.
    pose proof (writer_from _ Hq HI) as Hwr. pose proof (ownS _ _ Hr) as OS. pose proof (ownX _ _ Hr) as OX. pose proof (ownU _ _ Hr) as OU.
    pose proof (sumw_ge wA Ht) as GA. pose proof (sumw_ge wBs Ht) as GBs. pose proof (sumw_ge wBu Ht) as GBu. pose proof (sumw_ge wSl Ht) as GSl.
    pose proof (sumw_ge wW Ht) as GW.
    destruct Hx as (-> & _ & _ & _ & ->). unfold wW in GW at 1.
    destruct HC as [Hcount Hone Hx Hu Hw H0 Hewb]. destruct HC2 as [Haw Ha Hbs Hbu Hwr2 Hsl].
    unfold tr, fa in *. destruct (sh c) as [cn ex up ew]; simpl in *.
    destruct op; simpl in *; try discriminate.
    - destruct Hav as (A1 & A2 & A3). destruct ex; [apply OX; auto; lia|].
      destruct (Nat.eq_dec (sumw wS (thr c)) 0); [|apply OS; auto; lia].
      destruct (Nat.eq_dec (sumw wU (thr c)) 0); [|apply OU; auto; lia]. lia.
    - destruct Hav as (A1 & A2 & A3). destruct ex; [apply OX; auto; lia|].
      destruct (Nat.eq_dec (sumw wS (thr c)) 0); [|apply OS; auto; lia].
      destruct (Nat.eq_dec (sumw wU (thr c)) 0); [|apply OU; auto; lia]. lia.
    - destruct Hav as (A1 & A2). destruct ex; [apply OX; auto; lia|]. destruct ew; [apply A2, Hwr; lia|]. lia.
    - destruct Hav as (A1 & A2). destruct ex; [apply OX; auto; lia|]. destruct ew; [apply A2, Hwr; lia|]. lia.
    - destruct Hav as (A1 & A2 & A3). destruct ex; [apply OX; auto; lia|]. destruct ew; [apply A3, Hwr; lia|].
      destruct up; [apply OU; auto; lia|lia].
    - destruct Hav as (A1 & A2 & A3). destruct ex; [apply OX; auto; lia|]. destruct ew; [apply A3, Hwr; lia|].
      destruct up; [apply OU; auto; lia|lia].
    - apply OS; auto. destruct ex, up; lia.
  Qed.

  Lemma free_nobody_blocked n c t op : reachable P n sm_new MNone c -> quiescent c ->
    nobody c MX -> nobody c MUp -> nobody c MSh -> ~ s_blocked c t op.
  Proof.
    intros Hr Hq N1 N2 N3 Hb. destruct (lock_wait op) eqn:Hop.
    - (* no owner: nothing to wait for *)
      destruct (Inv_reachable _ _ Hr) as [HI _]. pose proof (q_x _ Hq HI) as HX. pose proof HI as [Hst HC HC2].
      assert (HnW : forall w, ~ s_blocked c w SLock /\ ~ s_blocked c w STimedLock).
      { intros w. split; intros Hw; eapply no_lost_wakeup; eauto; simpl; auto. }
      apply (no_lost_wakeup _ _ _ _ Hr Hq Hb Hop). destruct op; simpl; try discriminate; auto;
        repeat split; auto; intros (w & [Hw|Hw]); apply HnW in Hw; auto.
    - destruct Hb as (l & cv & k & Ht). destruct (Inv_reachable _ _ Hr) as [HI _]. destruct HI as [Hst _ _].
      pose proof (Forall_nth_error Hst Ht) as Hx. simpl in Hx. pose proof (lm_owns _ _ _ _ Hr Ht) as Ho. simpl in Ho.
      destruct Hx as (-> & _ & Hw & _). destruct op; simpl in *; try discriminate; [eapply N2|eapply N3|eapply N3]; eauto.
  Qed.

  Lemma sm_direct : direct P.
  Proof.
    intros t e k s s' ns o. cbn [frag smprog]. unfold sfrag, s_loop.
    destruct k as [op|op|op]; destruct op; intros H;
      repeat match type of H with
      | context [if ?b then _ else _] => destruct b
      | context [match s_count ?s with 0 => _ | _ => _ end] => destruct (s_count s)
      end; inversion H; subst; auto.
  Qed.

  Lemma comes_to_rest n c : reachable P n sm_new MNone c ->
    exists ls c', run P c ls = Some c' /\ quiescent c' /\
      Forall (fun lb => match lb with LRun _ _ _ _ => True | _ => False end) ls.
  Proof.
    apply (settles (P:=P) (n:=n) (s0:=sm_new) (l0:=MNone) tt sm_direct). intros c' Hr Hin.
    apply In_nth_error in Hin as [i Hi]. eapply no_crash; eauto.
  Qed.

  (** A failed timed upgrade had another owner at the end. *)
  Lemma timed_up_fail n c lb c' t : reachable P n sm_new MNone c -> step P c lb = Some c' ->
    hist c' = EDone t STimedUpToX false :: hist c -> exists t', t' <> t /\ owns c' t' MSh.
  Proof.
    intros Hr Hs Hh. pose proof (step_inv P _ _ Hs) as Hsc. destruct (Inv_reachable _ _ Hr) as [HI _].
    assert (Hr' : reachable P n sm_new MNone c') by (eapply reachable_step; eauto).
    destruct (Inv_reachable _ _ Hr') as [HI' _].
    destruct Hsc as
     [t0 l op Ht Hp ->|t0 ps e l op k s' ns o thr' Ht Hfr Hd ->|t0 p l n0 ns thr' Ht Hd ->
     |t0 l op cv k Ht ->|t0 l op cv k k' Ht Hk ->|t0 l op cv k k' Ht Hk ->|t0 l op k k' Ht Hk ->];
     cbn [hist] in Hh; try discriminate; try (apply (f_equal (@length _)) in Hh; simpl in Hh; lia).
    pose proof HI as [Hst HC _]. pose proof (Forall_nth_error Hst Ht) as Hx.
    assert (E : t0 = t /\ op = STimedUpToX /\ o = ORet sk scv false).
    { destruct o as [r|r ns'|cv' k'|k'|]; simpl in Hh; try (apply (f_equal (@length _)) in Hh; simpl in Hh; lia).
      - injection Hh as -> -> ->. auto.
      - exfalso. cbn [frag smprog] in Hfr. revert Hfr. unfold sfrag, s_loop. clear. destruct k as [op0|op0|op0]; destruct op0; intros H;
        repeat match type of H with
        | context [if ?b then _ else _] => destruct b
        | context [match s_count ?s with 0 => _ | _ => _ end] => destruct (s_count s)
        end; discriminate. }
    destruct E as (-> & -> & ->). destruct Hx as (-> & _ & Hk).
    assert (Hneq : s_count (sh c) <> 1 /\ s' = sh c /\ ns = []).
    { cbn [frag smprog] in Hfr. destruct k as [op0|op0|op0]; [subst op0|destruct Hk as [-> _]|destruct Hk as [-> _]];
        unfold sfrag, s_loop, s_pred, one_shared in Hfr;
        repeat match type of Hfr with context [if ?b then _ else _] => destruct b eqn:? end; try discriminate.
      inversion Hfr; subst. repeat split. apply Nat.eqb_neq. auto. }
    destruct Hneq as (Hn1 & -> & ->). simpl in Hd. injection Hd as <-.
    destruct HC as [Hcount Hone _ _ _ _ _].
    assert (HU : wU (Ready scv (s_from STimedUpToX) STimedUpToX k) = 1).
    { unfold wU. simpl. destruct k as [op0|op0|op0]; auto; [destruct Hk as [-> _]; auto]. }
    pose proof (sumw_ge wU Ht). assert (HS : 0 < sumw wS (thr c)) by lia.
    destruct (sumw_pos wS HS) as (t' & y & Hy & Hwy). exists t'.
    assert (Hne : t' <> t).
    { intros ->. rewrite Ht in Hy. injection Hy as <-. unfold wS in Hwy. simpl in Hwy. lia. }
    split; auto. pose proof (lm_owns n _ t' y Hr' ltac:(simpl; rewrite nth_error_upd_other; auto)) as Ho.
    unfold wS in Hwy. destruct (lmode y); try lia; auto.
  Qed.
End SM.
