(** * A waiting writer and new readers *)

From Verif Require Import MonWake SM_Model SM_Spec SM_Proofs.

Section W.
  Variable allow : sop -> bool.
  Hypothesis Hallow : sm_compatible allow.
  Notation P := (smprog allow).
  Notation conf := smconf.
  Notation tst := (tstat sk sop scv mode).
  Variables (n w r : nat).

  Definition opof (x : tst) : option sop := match x with Ready _ _ op _ | Asleep _ op _ _ => Some op | _ => None end.
  Definition rd_only (x : tst) : Prop := match opof x with Some op => shared_op op = true | None => True end.
  Definition clean (h : list (event sop bool)) : Prop := forall t op, In (EDone t op true) h -> acquires_shared op = false.

  Record J (h0 : list (event sop bool)) (c : conf) : Prop := {
    j_ewb : s_ewb (sh c) = true;
    j_r : nth_error (thr c) r = Some (Idle sk sop scv MSh);
    j_w : exists x, nth_error (thr c) w = Some x /\ (x = Ready scv MNone SLock (KWait SLock) \/ x = Asleep MNone SLock XC (KWait SLock));
    j_o : forall t x, t <> w -> nth_error (thr c) t = Some x -> rd_only x;
    j_h : exists h, hist c = h ++ h0 /\ clean h
  }.

  Lemma wake_opof x : opof (wake x) = opof x.
  Proof. destruct x; auto. Qed.

  Lemma count_pos c : Inv allow c -> nth_error (thr c) r = Some (Idle sk sop scv MSh) ->
    0 < s_count (sh c) /\ s_excl (sh c) = false /\
    forall t x, nth_error (thr c) t = Some x -> t <> r -> 0 < wS x + wU x -> 1 < s_count (sh c).
  Proof.
    intros [_ [Hcount Hone Hx Hu Hw H0 _] _] Hr. pose proof (sumw_ge wS Hr) as Hge. change (wS (Idle sk sop scv MSh)) with 1 in Hge.
    split; [lia|]. split.
    - unfold tr, fa in *. destruct (s_excl (sh c)); auto. destruct (s_up (sh c)); lia.
    - intros t x Ht Hne Hp. pose proof (sumw_ge2 wS Hne Ht Hr). pose proof (sumw_ge wU Ht).
      change (wS (Idle sk sop scv MSh)) with 1 in *. lia.
  Qed.

  Lemma J_step h0 c lb c' : r <> w -> reachable P n sm_new MNone c -> J h0 c -> readers_only r lb ->
    step P c lb = Some c' -> J h0 c'.
  Proof.
    intros Hrw Hreach [Hewb Hr (xw & Hw & Hxw) Ho (h & Hh & Hcl)] Hlb Hs.
    destruct (Inv_reachable allow Hallow _ _ Hreach) as [HI _]. pose proof HI as [Hst _ _].
    destruct (count_pos c HI Hr) as (Hc1 & Hex & Hc2).
    unfold step in Hs. destruct lb as [t op|t ps e|t|t|t]; simpl in Hlb;
      (destruct (nth_error (thr c) t) as [x|] eqn:Ht; [|discriminate]).
    - (* call *) destruct Hlb as [Hne Hsh]. destruct x as [l| | | |]; try discriminate.
      destruct (pre P l op) eqn:Hp; [|discriminate]. injection Hs as <-.
      assert (Htw : t <> w) by (intros ->; rewrite Ht in Hw; injection Hw as <-; destruct Hxw; discriminate).
      constructor; cbn [sh thr hist]; auto.
      + rewrite nth_error_upd_other; auto.
      + exists xw. rewrite nth_error_upd_other; auto.
      + intros t' x' Hne' Hx'. apply nth_error_upd in Hx' as [(<- & -> & _)|(_ & Hx')]; [exact Hsh|eauto].
      + exists (ECall bool t op :: h). rewrite Hh. split; auto. intros t' op' [E|Hin]; [discriminate|eauto].
    - destruct x as [|l op k| |l ns|]; try discriminate; [|destruct (Forall_nth_error Hst Ht)].
      destruct (frag P t e k (sh c)) as [[s' ns] o] eqn:Hfr.
      destruct (deliver_all P ns ps (thr c)) as [thr'|] eqn:Hd; [|discriminate].
      destruct (after P t l op o (hist c)) as [y h'] eqn:Haf. injection Hs as <-. cbn [frag smprog] in Hfr.
      pose proof (Forall_nth_error Hst Ht) as Hx. simpl in Hx.
      assert (HJ : ns = [] /\ s_ewb s' = true /\
         ((h' = hist c) \/ (exists b, h' = EDone t op b :: hist c /\ (b = true -> acquires_shared op = false))) /\
         (t = w -> y = Asleep MNone SLock XC (KWait SLock)) /\ (t <> w -> rd_only y)).
      { destruct (Nat.eq_dec t w) as [->|Htw].
        - rewrite Ht in Hw. injection Hw as <-. destruct Hxw as [E|E]; [|discriminate]. injection E as -> -> ->.
          unfold sfrag, s_loop, s_pred, can_lock in Hfr. rewrite Hex in Hfr.
          destruct (Nat.eqb_spec (s_count (sh c)) 0); [lia|]. simpl in Hfr. inversion Hfr; subst. simpl in Haf. inversion Haf; subst.
          repeat split; auto; congruence.
        - pose proof (Ho t _ Htw Ht) as Hop. unfold rd_only in Hop. simpl in Hop.
          destruct Hx as (-> & _ & Hk). pose proof (Hc2 t _ Ht Hlb) as Hc3. unfold wS in Hc3; simpl in Hc3.
          assert (Hcs : can_lock_shared (sh c) = false) by (unfold can_lock_shared; rewrite Hewb, orb_true_r; auto).
          destruct k as [op'|op'|op']; [subst op'|destruct Hk as (-> & Hwt)|destruct Hk as (-> & Hwt & Htm)];
            destruct op; simpl in Hop; try discriminate; unfold sfrag, s_loop, s_pred in Hfr; rewrite ?Hcs in Hfr.
          all: try (inversion Hfr; subst; simpl in Haf; inversion Haf; subst; unfold rd_only; simpl;
                    (split; [reflexivity|split; [exact Hewb|split; [first [left; reflexivity|right; eexists; split; [reflexivity|congruence]]|split; [congruence|intros _; auto]]]]); fail).
          unfold wU in Hc3; simpl in Hc3. specialize (Hc3 ltac:(lia)). unfold shared_ok in Hfr. rewrite Hex in Hfr.
          destruct (Nat.ltb_spec 0 (s_count (sh c))); [|lia]. simpl in Hfr. unfold no_shared, set_count in Hfr. simpl in Hfr.
          destruct (Nat.eqb_spec (s_count (sh c) - 1) 0); [lia|]. inversion Hfr; subst. simpl in Haf. inversion Haf; subst.
          unfold rd_only; simpl. repeat split; auto; try congruence. right. exists true. auto. }
      destruct HJ as (-> & Hew' & Hh' & Hyw & Hyo). simpl in Hd. injection Hd as <-.
      constructor; cbn [sh thr hist]; auto.
      + rewrite nth_error_upd_other; auto.
      + destruct (Nat.eq_dec t w) as [->|Htw].
        * exists y. rewrite nth_error_upd_same by (eapply nth_error_lt; eauto). auto.
        * exists xw. rewrite nth_error_upd_other; auto.
      + intros t' x' Hne' Hx'. apply nth_error_upd in Hx' as [(<- & -> & _)|(_ & Hx')]; eauto.
      + destruct Hh' as [->|(b & -> & Hb)]; [exists h; auto|]. exists (EDone t op b :: h). rewrite Hh. split; auto.
        intros t' op' [E|Hin]; [injection E as -> -> ->; auto|eauto].
    - destruct x as [| |l op cv k| |]; try discriminate. injection Hs as <-.
      constructor; cbn [sh thr hist]; eauto.
      + rewrite nth_error_upd_other; auto.
      + destruct (Nat.eq_dec t w) as [->|Htw].
        * rewrite Ht in Hw. injection Hw as <-. destruct Hxw as [E|E]; [discriminate|]. injection E as -> -> -> ->.
          eexists. rewrite nth_error_upd_same by (eapply nth_error_lt; eauto). auto.
        * exists xw. rewrite nth_error_upd_other; auto.
      + intros t' x' Hne' Hx'. apply nth_error_upd in Hx' as [(<- & -> & _)|(_ & Hx')]; [apply (Ho t _ Hne' Ht)|eauto].
    - destruct x as [| |l op cv k| |]; try discriminate. destruct (on_timeout P k) as [k'|] eqn:Hk; [|discriminate]. injection Hs as <-.
      constructor; cbn [sh thr hist]; eauto.
      + rewrite nth_error_upd_other; auto.
      + destruct (Nat.eq_dec t w) as [->|Htw].
        * rewrite Ht in Hw. injection Hw as <-. destruct Hxw as [E|E]; [discriminate|]. injection E as -> -> -> ->. discriminate.
        * exists xw. rewrite nth_error_upd_other; auto.
      + intros t' x' Hne' Hx'. apply nth_error_upd in Hx' as [(<- & -> & _)|(_ & Hx')]; [apply (Ho t _ Hne' Ht)|eauto].
    - destruct x; discriminate.
  Qed.

  Lemma J_run h0 ls c c' : r <> w -> reachable P n sm_new MNone c -> J h0 c -> Forall (readers_only r) ls ->
    run P c ls = Some c' -> J h0 c'.
  Proof.
    intros Hrw. revert c. induction ls as [|lb ls IH]; simpl; intros c Hr HJ HF Hrun.
    - injection Hrun as <-. auto.
    - destruct (step P c lb) as [c1|] eqn:Hs; [|discriminate]. inversion HF; subst.
      apply (IH c1); auto; [eapply reachable_step; eauto|eapply J_step; eauto].
  Qed.

  Lemma writer_blocks_readers c0 ps ls c2 : r <> w -> reachable P n sm_new MNone c0 ->
    nth_error (thr c0) r = Some (Idle sk sop scv MSh) ->
    (forall t op, s_inside c0 t op -> shared_op op = true) ->
    run P c0 (LCall unit w SLock :: LRun sop w ps tt :: ls) = Some c2 -> Forall (readers_only r) ls ->
    s_inside c2 w SLock /\
    exists h, hist c2 = h ++ hist c0 /\ forall t op, In (EDone t op true) h -> acquires_shared op = false.
  Proof.
    intros Hrw Hr Hrr Ho Hrun HF. cbn [run] in Hrun.
    destruct (step P c0 (LCall unit w SLock)) as [c1|] eqn:Hs1; [|discriminate].
    destruct (step P c1 (LRun sop w ps tt)) as [c1'|] eqn:Hs2; [|discriminate].
    assert (Hr1 : reachable P n sm_new MNone c1) by (eapply reachable_step; eauto).
    assert (Hr2 : reachable P n sm_new MNone c1') by (eapply reachable_step; eauto).
    assert (HJ : J (hist c0) c1').
    { destruct (Inv_reachable allow Hallow _ _ Hr1) as [HI1 _].
      unfold step in Hs1. destruct (nth_error (thr c0) w) as [[l| | | |]|] eqn:Hw; try discriminate.
      destruct (pre P l SLock) eqn:Hp; [|discriminate]. injection Hs1 as <-.
      assert (l = MNone) by (simpl in Hp; destruct l; auto; rewrite andb_false_r in Hp; discriminate). subst l.
      assert (Hlt : w < length (thr c0)) by (eapply nth_error_lt; eauto).
      destruct (count_pos _ HI1) as (Hc1 & Hex & _); [cbn [thr]; rewrite nth_error_upd_other; auto|]. cbn [sh] in Hc1, Hex.
      unfold step in Hs2. cbn [thr sh hist] in Hs2. rewrite nth_error_upd_same in Hs2 by auto.
      cbn [start frag smprog] in Hs2. unfold sfrag, s_loop, s_pred, can_lock, set_ewb in Hs2. cbn [s_count s_excl] in Hs2. rewrite Hex in Hs2.
      destruct (Nat.eqb_spec (s_count (sh c0)) 0); [lia|]. simpl in Hs2. injection Hs2 as <-.
      constructor; cbn [sh thr hist]; auto.
      - rewrite !nth_error_upd_other; auto.
      - eexists. rewrite nth_error_upd_same by (rewrite upd_length; auto). split; [reflexivity|right; reflexivity].
      - intros t x Hne Hx. rewrite !nth_error_upd_other in Hx by auto. unfold rd_only.
        destruct x as [|l op k|l op cv k| |]; simpl; auto; apply (Ho t); exists l; eauto.
      - exists [ECall bool w SLock]. split; auto. intros t op [E|[]]. discriminate. }
    pose proof (J_run _ _ _ _ Hrw Hr2 HJ HF Hrun) as [_ _ (x & Hx & Hxx) _ Hh]. split; [|exact Hh].
    exists MNone. destruct Hxx as [-> | ->]; eauto.
  Qed.
End W.
