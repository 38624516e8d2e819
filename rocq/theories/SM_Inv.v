(** * The invariant of shared_mutex *)

From Verif Require Import MonWake SM_Model.

Section SM.
  Variable allow : sop -> bool.
  Notation P := (smprog allow).
  Notation conf := (cfg smx sk sop bool scv mode).
  Notation tst := (tstat sk sop scv mode).

  Definition waits (op : sop) : bool :=
    match op with
    | SLock | STimedLock | SLockSh | STimedLockSh | SLockUp | STimedLockUp | SUpToX | STimedUpToX | STimedShToUp | STimedShToX => true
    | _ => false
    end.

  Definition stat (x : tst) : Prop :=
    match x with
    | Idle _ _ _ _ => True
    | Ready _ l op k => l = s_from op /\ allow op = true /\
        match k with
        | KBegin op' => op' = op
        | KWait op' => op' = op /\ waits op = true
        | KDead op' => op' = op /\ waits op = true /\ s_timed op = true
        end
    | Asleep l op cv k => l = s_from op /\ allow op = true /\ waits op = true /\ cv = s_cv op /\ k = KWait op
    | Tail _ _ _ _ => False
    | Crashed _ _ _ _ => False
    end.

  Definition lmode (x : tst) : mode :=
    match x with Idle _ _ _ l | Ready _ l _ _ | Asleep l _ _ _ | Tail _ _ l _ => l | Crashed _ _ _ _ => MNone end.
  Definition upw (x : tst) : bool :=
    match x with Ready _ _ _ (KWait SUpToX) | Asleep _ _ _ (KWait SUpToX) => true | _ => false end.

  Definition wS (x : tst) : nat := match lmode x with MSh => 1 | _ => 0 end.
  Definition wU (x : tst) : nat := match lmode x with MUp => if upw x then 0 else 1 | _ => 0 end.
  Definition wW (x : tst) : nat := match lmode x with MUp => if upw x then 1 else 0 | _ => 0 end.
  Definition wX (x : tst) : nat := match lmode x with MX => 1 | _ => 0 end.

  Definition wA (x : tst) : nat := match x with Asleep _ SUpToX _ _ => 1 | _ => 0 end.
  Definition wBs (x : tst) : nat := match x with Asleep _ SLockSh _ _ | Asleep _ STimedLockSh _ _ => 1 | _ => 0 end.
  Definition wBu (x : tst) : nat := match x with Asleep _ SLockUp _ _ | Asleep _ STimedLockUp _ _ => 1 | _ => 0 end.
  Definition wSl (x : tst) : nat := match x with Asleep _ SLock _ _ | Asleep _ STimedLock _ _ => 1 | _ => 0 end.
  Definition wRd (x : tst) : nat :=
    match x with Ready _ _ _ (KWait SLock) | Ready _ _ _ (KWait STimedLock) | Ready _ _ _ (KDead STimedLock) => 1 | _ => 0 end.

  Definition tr (b : bool) : Prop := if b then True else False.
  Definition fa (b : bool) : Prop := if b then False else True.

  (** Ownership. *)
  Record Cnt (s : smx) (S U W X : nat) : Prop := {
    k_count : s_count s = S + U;
    k_one : X + U + W <= 1;
    k_x : X = 1 -> S = 0 /\ tr (s_excl s) /\ fa (s_up s);
    k_u : U = 1 -> tr (s_up s) /\ fa (s_excl s);
    k_w : W = 1 -> (tr (s_up s) /\ fa (s_excl s) /\ 0 < s_count s) \/ (fa (s_up s) /\ tr (s_excl s) /\ s_count s = 0);
    k_0 : X + U + W = 0 -> fa (s_up s) /\ fa (s_excl s);
    k_ewb : tr (s_ewb s) -> fa (s_excl s) -> 0 < s_count s
  }.
  (** Sleepers. *)
  Record Cnt2 (s : smx) (W A Bs Bu Sl Rd : nat) : Prop := {
    k_aw : A <= W;
    k_a : 0 < A -> tr (s_up s);
    k_bs : 0 < Bs -> tr (s_excl s) \/ tr (s_ewb s);
    k_bu : 0 < Bu -> tr (s_excl s) \/ tr (s_ewb s) \/ tr (s_up s);
    k_wr : tr (s_ewb s) -> fa (s_excl s) -> 0 < Sl + Rd;
    k_sl : s_count s = 0 -> fa (s_excl s) -> 0 < Sl -> 0 < Rd
  }.

  Definition cnt (s : smx) (l : list tst) : Prop := Cnt s (sumw wS l) (sumw wU l) (sumw wW l) (sumw wX l).
  Definition cnt2 (s : smx) (l : list tst) : Prop :=
    Cnt2 s (sumw wW l) (sumw wA l) (sumw wBs l) (sumw wBu l) (sumw wSl l) (sumw wRd l).

  Record Inv (c : conf) : Prop := {
    i_stat : Forall stat (thr c);
    i_cnt : cnt (sh c) (thr c);
    i_cnt2 : cnt2 (sh c) (thr c)
  }.

  Lemma stat_wake x : is_asleep x = true -> stat x -> stat (wake x).
  Proof. destruct x; simpl; try discriminate. intros _ (H1 & H2 & H3 & H4 & ->). auto. Qed.

  (** The mode weights do not change when a thread is woken. *)
  Lemma lm_wake x : lmode (wake x) = lmode x.
  Proof. destruct x; auto. Qed.
  Lemma upw_wake x : upw (wake x) = upw x.
  Proof. destruct x; auto. Qed.
  Lemma wS_wake x : wS (wake x) = wS x. Proof. unfold wS. now rewrite lm_wake. Qed.
  Lemma wU_wake x : wU (wake x) = wU x. Proof. unfold wU. now rewrite lm_wake, upw_wake. Qed.
  Lemma wW_wake x : wW (wake x) = wW x. Proof. unfold wW. now rewrite lm_wake, upw_wake. Qed.
  Lemma wX_wake x : wX (wake x) = wX x. Proof. unfold wX. now rewrite lm_wake. Qed.

  Lemma wake_mono l l' : Forall stat l -> woken_rel l l' ->
    sumw wA l' <= sumw wA l /\ sumw wBs l' <= sumw wBs l /\ sumw wBu l' <= sumw wBu l /\ sumw wSl l' <= sumw wSl l.
  Proof.
    intros _ Hw. repeat split; apply (woken_sumw_le _ Hw); intros [| | | |]; simpl; lia.
  Qed.
  Lemma woken_mode l l' : woken_rel l l' ->
    sumw wS l' = sumw wS l /\ sumw wU l' = sumw wU l /\ sumw wW l' = sumw wW l /\ sumw wX l' = sumw wX l.
  Proof.
    intros Hw. repeat split; apply (woken_sumw_eq _ Hw); intros x _;
      [apply wS_wake|apply wU_wake|apply wW_wake|apply wX_wake].
  Qed.

  Lemma rd_wake x : stat x -> is_asleep x = true -> wRd (wake x) = wRd x + wSl x.
  Proof.
    destruct x as [| |l op cv k| |]; simpl; try discriminate. intros (_ & _ & Hw & _ & ->) _.
    destruct op; simpl in *; auto; discriminate.
  Qed.
  Lemma rd_mono l l' : Forall stat l -> woken_rel l l' -> sumw wRd l <= sumw wRd l'.
  Proof.
    intros HF [Hlen H]. revert l' Hlen H. induction l as [|x l IH]; intros [|y l'] Hlen H; simpl in *; try discriminate; auto.
    inversion HF as [|? ? Hx HF']; subst.
    assert (wRd x <= wRd y).
    { destruct (H 0 x eq_refl) as [H0|[Ha H0]]; simpl in H0; injection H0 as ->; auto. rewrite (rd_wake x Hx Ha).
      destruct x; simpl in *; try discriminate; lia. }
    assert (sumw wRd l <= sumw wRd l'); [apply IH; auto|lia].
    intros i z Hz. apply (H (Datatypes.S i) z Hz).
  Qed.

  Lemma wr_wake l l' : Forall stat l -> woken_rel l l' -> sumw wSl l' + sumw wRd l' = sumw wSl l + sumw wRd l.
  Proof.
    intros HF [Hlen H]. revert l' Hlen H. induction l as [|x l IH]; intros [|y l'] Hlen H; simpl in *; try discriminate; auto.
    inversion HF as [|? ? Hx HF']; subst.
    assert (wSl y + wRd y = wSl x + wRd x).
    { destruct (H 0 x eq_refl) as [H0|[Ha H0]]; simpl in H0; injection H0 as ->; auto. rewrite (rd_wake x Hx Ha).
      destruct x; simpl in *; try discriminate; lia. }
    assert (sumw wSl l' + sumw wRd l' = sumw wSl l + sumw wRd l); [apply IH; auto|lia].
    intros i z Hz. apply (H (Datatypes.S i) z Hz).
  Qed.

  (** What the delivery of a fragment's notifications does to the numbers. *)
  Lemma deliver_nums ns ps l l' :
    Forall stat l -> deliver_all P ns ps l = Some l' ->
    ns = [] \/ ns = [NAll SC] \/ ns = release_waiters \/ ns = NOne UC :: release_waiters ->
    Forall stat l' /\ woken_rel l l' /\
    (ns <> [] -> sumw wBs l' = 0 /\ sumw wBu l' = 0) /\
    (ns = NOne UC :: release_waiters -> sumw wW l <= 1 -> sumw wA l <= sumw wW l -> sumw wA l' = 0) /\
    (In (NOne XC) ns ->
       sumw wSl l' = 0 \/ 0 < sumw wRd l' \/
       exists j x, nth_error l' j = Some x /\ wS x = 1 /\ (exists k, x = Ready scv MSh STimedShToUp k)).
  Proof.
    intros HF Hd Hns. pose proof (deliver_all_woken Hd) as Hw.
    assert (HF' : Forall stat l') by (apply (woken_Forall _ Hw); [apply stat_wake|exact HF]).
    split; [exact HF'|]. split; [exact Hw|]. split; [|split].
    - intros Hne. assert (Hin : In (NAll SC) ns) by (destruct Hns as [->|[->|[->| ->]]]; simpl; tauto).
      pose proof (deliver_all_NAll P SC ns ps l Hd Hin) as Hno. rewrite Forall_forall in Hno, HF'.
      split; apply sumw_zero; intros x Hx; specialize (Hno x Hx); specialize (HF' x Hx);
        destruct x as [| |m op cv k| |]; simpl; auto; unfold not_on in Hno; simpl in Hno, HF';
        destruct HF' as (_ & _ & _ & -> & _); destruct op; auto; discriminate.
    - intros -> H1 H2. remember release_waiters as rw. cbn [deliver_all] in Hd.
      destruct (deliver P (NOne UC) (hd 0 ps) l) as [l1|] eqn:Hd1; [|discriminate]. subst rw.
      pose proof (deliver_all_woken (P:=P) (ns:=release_waiters) Hd) as Hw1.
      assert (HF1 : Forall stat l1) by (apply (woken_Forall _ (deliver_woken Hd1)); [apply stat_wake|exact HF]).
      pose proof (wake_mono _ _ HF1 Hw1) as (HA & _).
      enough (sumw wA l1 = 0) by lia.
      destruct (deliver_one_sumw wA Hd1) as [[-> Hno]|(x & Hp & Hs & -> & Heq)].
      + apply sumw_zero. intros x Hx. specialize (Hno x Hx). rewrite Forall_forall in HF. specialize (HF x Hx).
        destruct x as [| |m op cv k| |]; simpl in *; auto. destruct HF as (_ & _ & _ & -> & _). destruct op; auto; discriminate.
      + pose proof (Forall_nth_error HF Hp) as Hx. destruct x as [| |m op cv k| |]; simpl in *; try discriminate.
        destruct Hx as (_ & _ & Hwt & -> & _). destruct op; simpl in *; try discriminate. lia.
    - intros Hin.
      assert (exists l0 ps0 l1, Forall stat l0 /\ deliver P (NOne XC) (hd 0 ps0) l0 = Some l1 /\ l' = map (wake_if P SC) l1)
        as (l0 & ps0 & l1 & HF0 & Hd0 & ->).
      { destruct Hns as [->|[->|[->| ->]]]; simpl in Hin; try tauto; try (destruct Hin as [Hin|[]]; discriminate).
        - simpl in Hd. match type of Hd with context [if ?b then _ else _] => destruct b eqn:Hb end.
          + destruct (nth_error l (hd 0 ps)) as [x|] eqn:Hx; [|discriminate].
            destruct (asleep_on P XC x) eqn:Ha; [|discriminate]. injection Hd as <-.
            exists l, ps, (upd l (hd 0 ps) (wake x)). split; [exact HF|]. split; [|reflexivity].
            simpl. rewrite Hb, Hx, Ha. auto.
          + injection Hd as <-. exists l, ps, l. split; [exact HF|]. split; [|reflexivity]. simpl. rewrite Hb. auto.
        - remember release_waiters as rw. cbn [deliver_all] in Hd.
          destruct (deliver P (NOne UC) (hd 0 ps) l) as [l2|] eqn:Hd2; [|discriminate]. subst rw.
          assert (HF2 : Forall stat l2) by (apply (woken_Forall _ (deliver_woken Hd2)); [apply stat_wake|exact HF]).
          clear Hd2. unfold release_waiters in Hd. cbn [deliver_all] in Hd.
          destruct (deliver P (NOne XC) (hd 0 (tl ps)) l2) as [l3|] eqn:Hd3; [|discriminate].
          cbn [deliver] in Hd. injection Hd as <-. exists l2, (tl ps), l3. auto. }
      assert (HF1 : Forall stat l1) by (apply (woken_Forall _ (deliver_woken Hd0)); [apply stat_wake|exact HF0]).
      destruct (deliver_one_sumw wRd Hd0) as [[-> Hno]|(x & Hp & Hs & Hl1 & Heq)].
      + left. rewrite sumw_map. apply sumw_zero. intros x Hx. specialize (Hno x Hx). rewrite Forall_forall in HF0. specialize (HF0 x Hx).
        destruct x as [| |m op cv k| |]; simpl in *; auto. destruct HF0 as (_ & _ & _ & -> & _).
        unfold wake_if. simpl. destruct op; simpl in *; auto; discriminate.
      + right. pose proof (Forall_nth_error HF0 Hp) as Hx. destruct x as [| |m op cv k| |]; simpl in Hs; try discriminate.
        assert (Hlt : hd 0 ps0 < length l0) by (eapply nth_error_lt; eauto).
        simpl in Hx. destruct Hx as (-> & _ & Hwt & -> & ->). destruct op; simpl in Hs, Hwt; try discriminate; simpl in Heq.
        1,2: left; assert (0 < sumw wRd l1) by lia;
          assert (woken_rel l1 (map (wake_if P SC) l1)) by (eapply (deliver_woken (P:=P) (n:=NAll SC) (p:=0)); reflexivity);
          pose proof (rd_mono _ _ HF1 H0); lia.
        right. exists (hd 0 ps0), (Ready scv MSh STimedShToUp (KWait STimedShToUp)).
        subst l1. rewrite nth_error_map, nth_error_upd_same by auto. simpl. split; [reflexivity|]. split; eauto.
  Qed.

  (** Replacing one thread's status. *)
  Lemma cnt_upd s l s' t x y :
    nth_error l t = Some x ->
    (forall S U W X A Bs Bu Sl Rd,
       S + wS x = sumw wS l -> A + wA x = sumw wA l -> Bs + wBs x = sumw wBs l -> Bu + wBu x = sumw wBu l ->
       Sl + wSl x = sumw wSl l -> Rd + wRd x = sumw wRd l -> W + wW x = sumw wW l -> U + wU x = sumw wU l ->
       Cnt s (S + wS x) (U + wU x) (W + wW x) (X + wX x) ->
       Cnt s' (S + wS y) (U + wU y) (W + wW y) (X + wX y) /\
       Cnt2 s' (W + wW y) (A + wA y) (Bs + wBs y) (Bu + wBu y) (Sl + wSl y) (Rd + wRd y)) ->
    cnt s l -> cnt s' (upd l t y) /\ cnt2 s' (upd l t y).
  Proof.
    intros Ht H Hc. unfold cnt, cnt2 in *.
    assert (E : forall w : tst -> nat, sumw w l = (sumw w l - w x) + w x /\ sumw w (upd l t y) = (sumw w l - w x) + w y).
    { intros w. pose proof (sumw_upd w y Ht). pose proof (sumw_ge w Ht). lia. }
    rewrite (proj1 (E wS)), (proj1 (E wU)), (proj1 (E wW)), (proj1 (E wX)) in Hc.
    rewrite (proj2 (E wS)), (proj2 (E wU)), (proj2 (E wW)), (proj2 (E wX)),
      (proj2 (E wA)), (proj2 (E wBs)), (proj2 (E wBu)), (proj2 (E wSl)), (proj2 (E wRd)).
    apply H; auto; apply eq_sym, E.
  Qed.

  Definition s_y (t : nat) (l : mode) (op : sop) (o : outcome sk scv bool) : tst := fst (after P t l op o []).

  Lemma frag_nums t e l op k s s' ns o :
    stat (Ready scv l op k) -> sfrag t e k s = (s', ns, o) ->
    let x := Ready scv l op k in let y := s_y t l op o in
    (ns = [] \/ ns = [NAll SC] \/ ns = release_waiters \/ ns = NOne UC :: release_waiters) /\
    (In (NOne XC) ns -> op <> STimedShToUp) /\
    forall S U W X, Cnt s (S + wS x) (U + wU x) (W + wW x) (X + wX x) -> (op = STimedShToX -> U + W = 0) ->
      stat y /\ Cnt s' (S + wS y) (U + wU y) (W + wW y) (X + wX y) /\
      forall A Bs Bu Sl Rd A0 Bs0 Bu0 Sl0 Rd0,
        Cnt2 s (W + wW x) A0 Bs0 Bu0 Sl0 Rd0 ->
        A <= A0 -> Bs <= Bs0 -> Bu <= Bu0 -> Sl <= Sl0 -> Rd0 <= Rd + wRd x -> Sl + Rd + wRd x = Sl0 + Rd0 ->
        (ns <> [] -> Bs = 0 /\ Bu = 0) -> (ns = NOne UC :: release_waiters -> A = 0) ->
        (In (NOne XC) ns -> Sl = 0 \/ 0 < Rd + wRd x \/ 0 < S) ->
        A <= W ->
        Cnt2 s' (W + wW y) (A + wA y) (Bs + wBs y) (Bu + wBu y) (Sl + wSl y) (Rd + wRd y).
  Proof.
    intros Hst Hfr x y. subst x y. unfold s_y.
    destruct k as [op'|op'|op']; simpl in Hst;
      [destruct Hst as (-> & Hnx & ->)|destruct Hst as (-> & Hnx & -> & Hwt)|destruct Hst as (-> & Hnx & -> & Hwt & Htm)];
      destruct op; try discriminate;
      unfold sfrag, s_loop, release_waiters, s_pred, s_take, can_lock, can_lock_shared, can_lock_upgrade, no_shared, one_shared, locked_ok, shared_ok, upgraded_ok in Hfr;
      destruct s as [n [|] [|] [|]]; simpl in Hfr.
    all: repeat match type of Hfr with
           | context [?a =? ?b] => destruct (Nat.eqb_spec a b); simpl in Hfr
           | context [?a <? ?b] => destruct (Nat.ltb_spec a b); simpl in Hfr
           | context [if ?b then _ else _] => destruct b eqn:?
           | context [match ?n with 0 => _ | Datatypes.S _ => _ end] => is_var n; destruct n
           end;
      inversion Hfr; subst; clear Hfr; simpl;
      (split; [tauto|]); (split; [intros; congruence || (simpl in *; intuition discriminate)|]);
      intros S U W X HC Hnu; unfold wS, wU, wW, wX in *; simpl in *; destruct HC; unfold tr, fa in *; simpl in *; try (pose proof (Hnu eq_refl)); clear Hnu;
      (split; [try (exfalso; lia); repeat split; auto; congruence|]);
      (split; [constructor; simpl; lia|]);
      intros A Bs Bu Sl Rd A0 Bs0 Bu0 Sl0 Rd0 H2 HA HBs HBu HSl HRd HSR Hall Huc Hxc HAW;
      try (specialize (Hall ltac:(discriminate)));
      try (specialize (Huc eq_refl));
      try (specialize (Hxc ltac:(tauto)));
      destruct H2; simpl in *; constructor; simpl; lia.
  Qed.
End SM.
