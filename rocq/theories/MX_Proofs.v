(** * Proofs about timed_mutex and the recursive mutexes *)

From Verif Require Import MonWake MX_Model MX_Spec.

Section TM.
  Variable allow : top -> bool.
  Hypothesis Hallow : forall op, allow op = true -> t_ordinary op = true.
  Notation P := (tmprog allow).
  Notation tst := (tstat tk top unit bool).

  Definition tkok (op : top) (k : tk) : Prop :=
    match k with
    | TB op' => op' = op
    | TW => op = TLock \/ op = TRel DPosInf
    | TT | TD => op = TTimed \/ op = TRel DFinite
    end.
  Definition tstat_ok (x : tst) : Prop :=
    match x with
    | Idle _ _ _ _ => True
    | Ready _ l op k => allow op = true /\ tkok op k /\ l = (match op with TUnlock => true | _ => false end)
    | Asleep l op _ k => allow op = true /\ tkok op k /\ l = false /\ (k = TW \/ k = TT)
    | _ => False
    end.
  Definition tl (x : tst) : bool := match x with Idle _ _ _ l | Ready _ l _ _ | Asleep l _ _ _ | Tail _ _ l _ => l | _ => false end.
  Definition wO (x : tst) : nat := if tl x then 1 else 0.
  Definition waits (k : tk) : nat := match k with TB TUnlock => 0 | _ => 1 end.
  Definition wA (x : tst) : nat := match x with Asleep _ _ _ k => waits k | _ => 0 end.
  Definition wR (x : tst) : nat := match x with Ready _ _ _ k => waits k | _ => 0 end.

  Record TI (c : tmconf) : Prop := {
    ti_stat : Forall tstat_ok (thr c);
    ti_own : sumw wO (thr c) = if sh c then 1 else 0;
    ti_wake : 0 < sumw wA (thr c) -> sh c = true \/ 0 < sumw wR (thr c)
  }.

  Lemma tl_wake x : tl (wake x) = tl x. Proof. destruct x; auto. Qed.
  Lemma tstat_wake x : is_asleep x = true -> tstat_ok x -> tstat_ok (wake x).
  Proof. destruct x; simpl; try discriminate. intros _ (H1 & H2 & -> & H3). repeat split; auto. destruct op; auto. destruct k; simpl in H2; intuition discriminate. Qed.

  Lemma TI_step c c' : TI c -> stepcase P c c' -> TI c'.
  Proof.
    intros [Hst Ho Hw0] Hs. destruct Hs as
     [t l op Ht Hp ->|t ps e l op k s' ns o thr' Ht Hfr Hd ->|t p l n ns thr' Ht Hd ->
     |t l op cv k Ht ->|t l op cv k k' Ht Hk ->|t l op cv k k' Ht Hk ->|t l op k k' Ht Hk ->].
    - simpl in Hp. apply andb_prop in Hp as [Ha Hm].
      pose proof (sumw_upd wO (Ready unit l op (TB op)) Ht) as E1. pose proof (sumw_upd wA (Ready unit l op (TB op)) Ht) as E2.
      pose proof (sumw_upd wR (Ready unit l op (TB op)) Ht) as E3. cbn in E1, E2, E3. unfold wO in E1 at 2 4. cbn in E1.
      constructor; cbn [sh thr start tmprog].
      + apply Forall_upd; auto. simpl. repeat split; auto. destruct op, l; simpl in Hm; auto; discriminate.
      + destruct (sh c); lia.
      + intros H. destruct Hw0 as [H1|H1]; auto; [lia|]. right. destruct op; lia.
    - pose proof (Forall_nth_error Hst Ht) as Hx. simpl in Hx. destruct Hx as (Ha & Hk & Hl). pose proof (Hallow op Ha) as Hord.
      pose proof (deliver_all_woken Hd) as Hw.
      assert (Ht' : nth_error thr' t = Some (Ready unit l op k)) by (apply (woken_not_asleep Hw Ht); reflexivity).
      assert (Hst' : Forall tstat_ok thr') by (apply (woken_Forall _ Hw); [apply tstat_wake|exact Hst]).
      assert (EO : sumw wO thr' = sumw wO (thr c)).
      { apply (woken_sumw_eq _ Hw). intros x _. unfold wO. now rewrite tl_wake. }
      assert (EA : sumw wA thr' + sumw wR thr' = sumw wA (thr c) + sumw wR (thr c)).
      { rewrite <- !sumw_plus. apply (woken_sumw_eq (fun x => wA x + wR x) Hw). intros [| | | |]; simpl; lia. }
      assert (EL : sumw wA thr' <= sumw wA (thr c)).
      { apply (woken_sumw_le _ Hw). intros [| | | |]; simpl; lia. }
      assert (EN : ns = [NOne tt] -> 0 < sumw wA thr' -> 0 < sumw wR thr').
      { intros -> HA. cbn [deliver_all] in Hd. destruct (deliver P (NOne tt) (hd 0 ps) (thr c)) as [l1|] eqn:Hd1; [|discriminate].
        injection Hd as <-. destruct (deliver_one_sumw wA Hd1) as [[-> Hno]|(x & Hpk & Hsl & -> & Heq)].
        - exfalso. assert (sumw wA (thr c) = 0); [|lia]. apply sumw_zero. intros x Hin. specialize (Hno x Hin). destruct x; simpl in *; auto; discriminate.
        - pose proof (Forall_nth_error Hst Hpk) as Hxs. destruct x as [| |l2 op2 c2 k2| |]; try discriminate.
          destruct Hxs as (_ & _ & _ & [-> | ->]); simpl in *; lia. }
      pose proof (sumw_upd wO (fst (after P t l op o (hist c))) Ht') as U1.
      pose proof (sumw_upd wA (fst (after P t l op o (hist c))) Ht') as U2.
      pose proof (sumw_upd wR (fst (after P t l op o (hist c))) Ht') as U3.
      cbn [frag tmprog] in Hfr.
      assert (HH : tstat_ok (fst (after P t l op o (hist c))) /\
                   (if sh c then 1 else 0) + wO (fst (after P t l op o (hist c))) = (if s' then 1 else 0) + wO (Ready unit l op k) /\
                   (s' = true \/ ns = [NOne tt] /\ waits k = 0 /\ wA (fst (after P t l op o (hist c))) = 0 \/ (sh c = s' /\ wR (fst (after P t l op o (hist c))) = 1 /\ waits k = 1))).
      { pose proof (sumw_ge wO Ht) as Hge. rewrite Ho in Hge. unfold wO in *. cbn [tl] in Hge.
        destruct k as [op'| | |]; simpl in Hk; subst; try destruct Hk; subst; try destruct op; try destruct d; try discriminate Hord;
        unfold tfrag, t_take in Hfr; destruct (sh c), e; inversion Hfr; subst; simpl in *; try lia; auto 10. }
      destruct HH as (H1 & H2 & H3). constructor; cbn [sh thr].
      + apply Forall_upd; auto.
      + destruct (sh c), s'; lia.
      + intros HA. destruct H3 as [H3|[(H3 & H4 & H5)|(H3 & H4 & H5)]]; auto; right.
        * specialize (EN H3). cbn [wA wR] in U2, U3. lia.
        * pose proof (sumw_ge wR Ht') as Hg. cbn [wA wR] in U2, U3, Hg. lia.
    - destruct (Forall_nth_error Hst Ht).
    - pose proof (Forall_nth_error Hst Ht) as Hx.
      pose proof (sumw_upd wO (Ready unit l op k) Ht) as E1. pose proof (sumw_upd wA (Ready unit l op k) Ht) as E2.
      pose proof (sumw_upd wR (Ready unit l op k) Ht) as E3. cbn in E1, E2, E3. unfold wO in E1 at 2 4. cbn in E1.
      constructor; cbn [sh thr].
      + apply Forall_upd; auto. apply (tstat_wake (Asleep l op cv k) eq_refl Hx).
      + lia.
      + intros _. right. destruct Hx as (_ & _ & _ & [-> | ->]); simpl in *; lia.
    - pose proof (Forall_nth_error Hst Ht) as Hx. simpl in Hk. destruct k; try discriminate. injection Hk as <-.
      pose proof (sumw_upd wO (Ready unit l op TD) Ht) as E1. pose proof (sumw_upd wA (Ready unit l op TD) Ht) as E2.
      pose proof (sumw_upd wR (Ready unit l op TD) Ht) as E3. cbn in E1, E2, E3. unfold wO in E1 at 2 4. cbn in E1.
      constructor; cbn [sh thr].
      + apply Forall_upd; auto. pose proof (tstat_wake (Asleep l op cv TT) eq_refl Hx) as Hy. exact Hy.
      + lia.
      + intros _. right. lia.
    - discriminate.
    - discriminate.
  Qed.

  Lemma TI_reachable n c : reachable P n false false c -> TI c.
  Proof.
    apply (reachable_inv P TI).
    - constructor; cbn [sh thr init].
      + apply Forall_forall. intros x Hx. apply repeat_spec in Hx. subst. exact I.
      + rewrite sumw_repeat. unfold wO. simpl. lia.
      + rewrite sumw_repeat. simpl. lia.
    - intros c0 c' HI Hs. eapply TI_step; eauto.
  Qed.

  Lemma tm_owns_w (c : tmconf) t : tm_owns c t -> exists x, nth_error (thr c) t = Some x /\ wO x = 1.
  Proof. intros (x & Hx & H). exists x. split; auto. unfold wO. destruct x; simpl; try tauto; now subst. Qed.

  Lemma tm_exclusive n c t t' : reachable P n false false c -> tm_owns c t -> tm_owns c t' -> t = t'.
  Proof.
    intros Hr H1 H2. destruct (Nat.eq_dec t t') as [|Hne]; auto. exfalso. destruct (TI_reachable _ _ Hr) as [_ Ho _].
    destruct (tm_owns_w _ _ H1) as (x & Hx & E1). destruct (tm_owns_w _ _ H2) as (y & Hy & E2).
    pose proof (sumw_ge2 wO Hne Hx Hy). destruct (sh c); lia.
  Qed.

  Lemma tm_owner n c : reachable P n false false c -> sh c = true -> exists t, tm_owns c t.
  Proof.
    intros Hr E. destruct (TI_reachable _ _ Hr) as [Hst Ho _]. rewrite E in Ho.
    assert (Hp : 0 < sumw wO (thr c)) by lia. destruct (sumw_pos wO Hp) as (t & x & Hx & Hw).
    exists t, x. split; auto. pose proof (Forall_nth_error Hst Hx) as Hs. unfold wO in Hw.
    destruct x as [l|l op k|l op cv k|l ns|]; simpl in *; try tauto; destruct l; auto; lia.
  Qed.

  Lemma tm_no_lost_wakeup n c t op : reachable P n false false c -> quiescent c -> tm_blocked c t op -> exists t', t' <> t /\ tm_owns c t'.
  Proof.
    intros Hr Hq (l & cv & k & Ht). pose proof (TI_reachable _ _ Hr) as [Hst Ho Hw].
    pose proof (Forall_nth_error Hst Ht) as (_ & _ & -> & Hk). pose proof (sumw_ge wA Ht) as Hg.
    assert (HA : 0 < sumw wA (thr c)) by (destruct Hk as [-> | ->]; simpl in Hg; lia).
    destruct (Hw HA) as [E|HR].
    - destruct (tm_owner _ _ Hr E) as [t' Ho']. exists t'. split; auto. intros ->. destruct Ho' as (x & Hx & Hl).
      rewrite Ht in Hx. injection Hx as <-. discriminate.
    - exfalso. destruct (sumw_pos wR HR) as (j & x & Hj & Hx). destruct (quiescent_settled Hq Hj) as [(l' & ->)|(l' & op2 & cv' & k' & ->)]; simpl in Hx; lia.
  Qed.

  Lemma tm_try_exact n c t ps e c1 c2 r : reachable P n false false c ->
    step P c (LCall bool t TTry) = Some c1 -> step P c1 (LRun top t ps e) = Some c2 -> hist c2 = EDone t TTry r :: hist c1 ->
    r = true <-> forall t', ~ tm_owns c t'.
  Proof.
    intros Hr H1 H2 Hh. destruct (TI_reachable _ _ Hr) as [_ Ho _].
    cbn [step] in H1. destruct (nth_error (thr c) t) as [x|] eqn:Ht; [|discriminate]. destruct x as [l| | | |]; try discriminate.
    destruct (pre _ l TTry); [|discriminate]. injection H1 as <-. cbn [step thr sh hist] in H2.
    rewrite (nth_error_upd_same _ _ (nth_error_lt Ht)) in H2. cbn [frag tmprog start] in H2. cbn [tfrag] in H2.
    destruct (sh c) eqn:E; cbn in H2; injection H2 as <-; cbn in Hh; injection Hh as <-.
    - split; [discriminate|]. intros Hn. destruct (tm_owner _ _ Hr E) as [t' Ht']. destruct (Hn _ Ht').
    - split; auto. intros _ t' Hown. destruct (tm_owns_w _ _ Hown) as (y & Hy & Hwy). pose proof (sumw_ge wO Hy). lia.
  Qed.

  Lemma tm_no_crash n c t : reachable P n false false c -> nth_error (thr c) t <> Some (Crashed tk top unit bool).
  Proof. intros Hr Ht. destruct (TI_reachable _ _ Hr) as [Hst _ _]. apply (Forall_nth_error Hst Ht). Qed.

  Lemma tm_ranked : ranked P (fun k => match k with TD => 1 | _ => 0 end).
  Proof.
    intros t e k s s' ns o. cbn [frag tmprog]. unfold tfrag, t_take.
    destruct k as [op| | |]; try destruct op; try destruct d; destruct s; try destruct e; intros H; inversion H; subst; auto.
  Qed.

  Lemma tm_comes_to_rest n c : reachable P n false false c ->
    exists ls c', run P c ls = Some c' /\ quiescent c' /\
      Forall (fun lb => match lb with LRun _ _ _ _ => True | _ => False end) ls.
  Proof.
    intros Hr. destruct (ranked_settles true tm_ranked Hr) as (ls & c' & H1 & [H2|H2] & H3); [eauto|].
    exfalso. apply In_nth_error in H2 as [i Hi]. eapply tm_no_crash; [|exact Hi]. eapply reachable_run; eauto.
  Qed.
End TM.

Section RM.
  Variable W : nat.
  Variable allow : rop -> bool.
  Hypothesis Hallow : forall op, allow op = true -> r_ordinary op = true.
  Variable D : nat.
  Hypothesis HDW : D <= W.
  Hypothesis HW : 1 <= W.
  Notation P := (rmprog W allow D).
  Notation rst := (tstat rk rop unit nat).

  Definition rkok (op : rop) (k : rk) : Prop :=
    match k with
    | RB op' => op' = op \/ (op' = RTimed /\ op = RRel DFinite)
    | RW => op = RLock \/ op = RRel DPosInf
    | RT | RD => op = RTimed \/ op = RRel DFinite
    end.
  Definition rstat_ok (x : rst) : Prop :=
    match x with
    | Idle _ _ _ _ => True
    | Ready _ l op k => allow op = true /\ rkok op k /\
        match op with RUnlock => 0 < l | _ => l < D end /\ match k with RB _ => True | _ => l = 0 end
    | Asleep l op _ k => allow op = true /\ rkok op k /\ l = 0 /\ 0 < D /\ (k = RW \/ k = RT)
    | _ => False
    end.
  Definition dl (x : rst) : nat := match x with Idle _ _ _ l | Ready _ l _ _ | Asleep l _ _ _ | Tail _ _ l _ => l | _ => 0 end.
  Definition dep (l : list rst) (t : nat) : nat := match nth_error l t with Some x => dl x | None => 0 end.
  Definition rwaits (k : rk) : nat := match k with RB RUnlock => 0 | _ => 1 end.
  Definition vA (x : rst) : nat := match x with Asleep _ _ _ k => rwaits k | _ => 0 end.
  Definition vR (x : rst) : nat := match x with Ready _ _ _ k => rwaits k | _ => 0 end.

  Definition rown (s : rms) (f : nat -> nat) : Prop :=
    if r_locked s then 1 <= f (r_owner s) <= D /\ r_count s = f (r_owner s) mod W /\ forall t, t <> r_owner s -> f t = 0
    else r_count s = 0 /\ forall t, f t = 0.

  Record RI (c : rmconf) : Prop := {
    ri_stat : Forall rstat_ok (thr c);
    ri_own : rown (sh c) (dep (thr c));
    ri_wake : 0 < sumw vA (thr c) -> r_locked (sh c) = true \/ 0 < sumw vR (thr c)
  }.

  Lemma rown_ext s f g : (forall t, f t = g t) -> rown s f -> rown s g.
  Proof.
    intros E. unfold rown. destruct (r_locked s).
    - rewrite <- E. intros (H1 & H2 & H3). repeat split; try lia. intros t Ht. rewrite <- E. auto.
    - intros (H1 & H2). split; auto. intros t. rewrite <- E. auto.
  Qed.
  Lemma dep_upd l t x y u : nth_error l t = Some x -> dep (upd l t y) u = if u =? t then dl y else dep l u.
  Proof.
    intros Ht. unfold dep. destruct (Nat.eqb_spec u t) as [->|Hne].
    - now rewrite (nth_error_upd_same _ _ (nth_error_lt Ht)).
    - rewrite nth_error_upd_other; auto.
  Qed.
  Lemma dl_wake x : dl (wake x) = dl x. Proof. destruct x; auto. Qed.
  Lemma dep_woken l l' : woken_rel l l' -> forall t, dep l' t = dep l t.
  Proof.
    intros [Hlen H] t. unfold dep. destruct (nth_error l t) as [x|] eqn:E.
    - destruct (H t x E) as [->|[_ ->]]; auto. apply dl_wake.
    - apply nth_error_None in E. rewrite <- Hlen in E. apply nth_error_None in E. now rewrite E.
  Qed.
  Lemma rstat_wake x : is_asleep x = true -> rstat_ok x -> rstat_ok (wake x).
  Proof.
    destruct x; simpl; try discriminate. intros _ (H1 & H2 & -> & H4 & H3). repeat split; auto.
    - destruct op; auto. exfalso. destruct H3 as [-> | ->]; simpl in H2; intuition discriminate.
    - destruct k; auto.
  Qed.

  Lemma count_up d : d < W -> S (d mod W) mod W = S d mod W.
  Proof. intros H. rewrite (Nat.mod_small d W) by lia. reflexivity. Qed.
  Lemma count_down d : 1 <= d <= W -> (match d mod W with 0 => W - 1 | S n => n end) = d - 1.
  Proof.
    intros [H1 H2]. destruct (Nat.eq_dec d W) as [->|Hne]; [rewrite Nat.mod_same by lia; reflexivity|].
    rewrite Nat.mod_small by lia. destruct d; lia.
  Qed.
  Lemma frag_rown t e l op k s s' ns o f h :
    rstat_ok (Ready unit l op k) -> rown s f -> f t = l -> rfrag W t e k s = (s', ns, o) ->
    let y := fst (after P t l op o h) in
    rstat_ok y /\ rown s' (fun u => if u =? t then dl y else f u) /\
    (r_locked s' = true \/ ns = [NOne tt] /\ vA y = 0 \/ (r_locked s = r_locked s' /\ vR y = 1 /\ rwaits k = 1)).
  Proof.
    intros (Ha & Hk & Hl & Hk0) Ho Hf Hfr. cbv zeta. pose proof (Hallow op Ha) as Hord.
    (* acquiring from free *)
    assert (HT : r_locked s = false -> l < D -> rown (MkRM true t (S (r_count s) mod W)) (fun u => if u =? t then S l else f u)).
    { intros E HlD. unfold rown in *. rewrite E in Ho. destruct Ho as [Hc Hz]. cbn [r_locked r_owner r_count]. rewrite Nat.eqb_refl.
      rewrite Hz in Hf. subst l. rewrite Hc. repeat split; try lia. intros u Hu. destruct (Nat.eqb_spec u t); auto. congruence. }
    (* acquiring again *)
    assert (HG : r_locked s = true -> r_owner s = t -> l < D -> rown (MkRM true t (S (r_count s) mod W)) (fun u => if u =? t then S l else f u)).
    { intros E Et HlD. unfold rown in *. rewrite E in Ho. destruct Ho as (Hd & Hc & Hz). rewrite Et in *. cbn [r_locked r_owner r_count]. rewrite Nat.eqb_refl.
      rewrite Hf in *. repeat split; try lia; [rewrite Hc; apply count_up; lia|]. intros u Hu. destruct (Nat.eqb_spec u t); auto. congruence. }
    assert (HN : forall m, m = l -> rown s (fun u => if u =? t then m else f u)).
    { intros m ->. eapply rown_ext; [|exact Ho]. intros u. simpl. destruct (Nat.eqb_spec u t); congruence. }
    assert (H0 : r_locked s = true -> r_owner s <> t -> l = 0).
    { intros E Hne. unfold rown in Ho. rewrite E in Ho. destruct Ho as (_ & _ & Hz). rewrite <- Hf. apply Hz. congruence. }
    assert (Hu : k = RB RUnlock \/ k <> RB RUnlock) by (destruct k as [[]| | |]; auto; right; discriminate).
    destruct Hu as [-> |Hnu].
    { simpl in Hk. destruct Hk as [<-|[? _]]; [|discriminate]. cbn [rfrag] in Hfr. simpl in Hl.
      assert (Hlk : r_locked s = true).
      { destruct (r_locked s) eqn:E; auto. exfalso. unfold rown in Ho. rewrite E in Ho. destruct Ho as [_ Hz]. rewrite Hz in Hf. lia. }
      assert (Hot : r_owner s = t) by (destruct (Nat.eq_dec (r_owner s) t); auto; specialize (H0 Hlk n); lia).
      unfold rown in Ho. rewrite Hlk, Hot in Ho. destruct Ho as (Hd & Hc & Hz). rewrite Hf in *. rewrite Hc in Hfr.
      rewrite count_down in Hfr by lia. inversion Hfr; subst s' ns o; clear Hfr. cbn [after fst next rmprog rnext].
      split; [exact I|]. split; [|right; left; split; reflexivity].
      unfold rown. cbn [r_locked r_owner r_count dl]. rewrite Hlk, Hot, Nat.eqb_refl.
      destruct (Nat.eqb_spec (l - 1) 0) as [E|E].
      - split; auto. intros u. destruct (Nat.eqb_spec u t); auto.
      - split; [lia|]. split; [rewrite Nat.mod_small; lia|]. intros u Hu. destruct (Nat.eqb_spec u t); [congruence|auto]. }
    destruct s as [lk ow cn]; cbn [r_locked r_owner r_count] in *.
    unfold rfrag, r_loop, r_take, r_again, r_mine in Hfr; cbn [r_locked r_owner r_count] in Hfr.
    destruct k as [op'| | |]; simpl in Hk; [destruct Hk as [->|[-> ->]]|..|]; try (destruct Hk; subst op).
    all: try congruence; try (destruct op as [| | |d|]; try congruence); try (destruct d; try discriminate Hord).
    all: destruct lk; simpl in Hfr.
    all: try (destruct (Nat.eqb_spec ow t); simpl in Hfr); try destruct e; inversion Hfr; subst; clear Hfr; cbn -[rown Nat.modulo Nat.eqb];
      (split; [try exact I; repeat split; auto; try (apply H0; auto); try lia; fail|]); (split; [try (apply HT; auto; lia); try (apply HG; auto; lia); try (apply HN; auto; fail)|]);
      try (left; reflexivity); try (right; left; split; reflexivity); try (right; right; repeat split; reflexivity).
  Qed.

  Lemma RI_step c c' : RI c -> stepcase P c c' -> RI c'.
  Proof.
    intros [Hst Ho Hw0] Hs. destruct Hs as
     [t l op Ht Hp ->|t ps e l op k s' ns o thr' Ht Hfr Hd ->|t p l n ns thr' Ht Hd ->
     |t l op cv k Ht ->|t l op cv k k' Ht Hk ->|t l op cv k k' Ht Hk ->|t l op k k' Ht Hk ->].
    - simpl in Hp. apply andb_prop in Hp as [Ha Hm].
      pose proof (sumw_upd vA (Ready unit l op (RB op)) Ht) as E2. pose proof (sumw_upd vR (Ready unit l op (RB op)) Ht) as E3. cbn in E2, E3.
      constructor; cbn [sh thr start rmprog].
      + apply Forall_upd; auto. simpl. repeat split; auto. destruct op; apply Nat.ltb_lt in Hm; auto.
      + eapply rown_ext; [|exact Ho]. intros u. rewrite (dep_upd _ _ _ _ _ Ht). unfold dep. destruct (Nat.eqb_spec u t) as [->|]; auto. now rewrite Ht.
      + intros H. destruct Hw0 as [H1|H1]; auto; [lia|]. right. lia.
    - pose proof (Forall_nth_error Hst Ht) as Hx. pose proof (deliver_all_woken Hd) as Hw.
      assert (Ht' : nth_error thr' t = Some (Ready unit l op k)) by (apply (woken_not_asleep Hw Ht); reflexivity).
      assert (Hst' : Forall rstat_ok thr') by (apply (woken_Forall _ Hw); [apply rstat_wake|exact Hst]).
      assert (EA : sumw vA thr' + sumw vR thr' = sumw vA (thr c) + sumw vR (thr c)).
      { rewrite <- !sumw_plus. apply (woken_sumw_eq (fun x => vA x + vR x) Hw). intros [| | | |]; simpl; lia. }
      assert (EN : ns = [NOne tt] -> 0 < sumw vA thr' -> sumw vR (thr c) < sumw vR thr').
      { intros -> HA. cbn [deliver_all] in Hd. destruct (deliver P (NOne tt) (hd 0 ps) (thr c)) as [l1|] eqn:Hd1; [|discriminate].
        injection Hd as <-. destruct (deliver_one_sumw vA Hd1) as [[-> Hno]|(x & Hpk & Hsl & -> & Heq)].
        - exfalso. assert (sumw vA (thr c) = 0); [|lia]. apply sumw_zero. intros x Hin. specialize (Hno x Hin). destruct x; simpl in *; auto; discriminate.
        - pose proof (Forall_nth_error Hst Hpk) as Hxs. destruct x as [| |l2 op2 c2 k2| |]; try discriminate.
          destruct Hxs as (_ & _ & _ & _ & [-> | ->]); simpl in *; lia. }
      pose proof (sumw_upd vA (fst (after P t l op o (hist c))) Ht') as U2.
      pose proof (sumw_upd vR (fst (after P t l op o (hist c))) Ht') as U3.
      cbn [frag rmprog] in Hfr.
      assert (Hf : dep thr' t = l) by (unfold dep; now rewrite Ht').
      assert (Ho' : rown (sh c) (dep thr')).
      { eapply rown_ext; [|exact Ho]. intros u. symmetry. now apply dep_woken. }
      pose proof (frag_rown t e l op k (sh c) s' ns o (dep thr') (hist c) Hx Ho' Hf Hfr) as (H1 & H2 & H3).
      constructor; cbn [sh thr].
      + apply Forall_upd; auto.
      + eapply rown_ext; [|exact H2]. intros u. now rewrite (dep_upd _ _ _ _ _ Ht').
      + intros HA. destruct H3 as [H3|[(H3 & H4)|(H3 & H4 & H5)]]; auto; right.
        * specialize (EN H3). pose proof (sumw_ge vR Ht) as Hg. cbn [vA vR] in U2, U3, Hg. lia.
        * pose proof (sumw_ge vR Ht') as Hg. cbn [vA vR] in U2, U3, Hg. lia.
    - destruct (Forall_nth_error Hst Ht).
    - pose proof (Forall_nth_error Hst Ht) as Hx.
      pose proof (sumw_upd vA (Ready unit l op k) Ht) as E2. pose proof (sumw_upd vR (Ready unit l op k) Ht) as E3. cbn in E2, E3.
      constructor; cbn [sh thr].
      + apply Forall_upd; auto. apply (rstat_wake (Asleep l op cv k) eq_refl Hx).
      + eapply rown_ext; [|exact Ho]. intros u. rewrite (dep_upd _ _ _ _ _ Ht). unfold dep. destruct (Nat.eqb_spec u t) as [->|]; auto. now rewrite Ht.
      + intros _. right. destruct Hx as (_ & _ & _ & _ & [-> | ->]); simpl in *; lia.
    - pose proof (Forall_nth_error Hst Ht) as Hx. simpl in Hk. destruct k; try discriminate. injection Hk as <-.
      pose proof (sumw_upd vA (Ready unit l op RD) Ht) as E2. pose proof (sumw_upd vR (Ready unit l op RD) Ht) as E3. cbn in E2, E3.
      constructor; cbn [sh thr].
      + apply Forall_upd; auto. pose proof (rstat_wake (Asleep l op cv RT) eq_refl Hx) as Hy. exact Hy.
      + eapply rown_ext; [|exact Ho]. intros u. rewrite (dep_upd _ _ _ _ _ Ht). unfold dep. destruct (Nat.eqb_spec u t) as [->|]; auto. now rewrite Ht.
      + intros _. right. lia.
    - discriminate.
    - discriminate.
  Qed.

  Lemma RI_reachable n c : reachable P n rm_new 0 c -> RI c.
  Proof.
    apply (reachable_inv P RI).
    - constructor; cbn [sh thr init].
      + apply Forall_forall. intros x Hx. apply repeat_spec in Hx. subst. exact I.
      + split; auto. intros t. unfold dep. destruct (nth_error _ t) as [x|] eqn:E; auto. apply nth_error_In, repeat_spec in E. now subst.
      + rewrite sumw_repeat. simpl. lia.
    - intros c0 c' HI Hs. eapply RI_step; eauto.
  Qed.

  Lemma depth_dep (c : rmconf) t d : rm_depth c t d -> dep (thr c) t = d.
  Proof. intros (x & Hx & H). unfold dep. rewrite Hx. destruct x; simpl; tauto. Qed.
  Lemma dep_depth n c t : reachable P n rm_new 0 c -> 0 < dep (thr c) t -> rm_depth c t (dep (thr c) t).
  Proof.
    intros Hr. destruct (RI_reachable _ _ Hr) as [Hst _ _]. unfold dep. destruct (nth_error (thr c) t) as [x|] eqn:E; [|lia].
    intros _. exists x. split; auto. pose proof (Forall_nth_error Hst E). destruct x; simpl in *; tauto.
  Qed.

  Lemma rm_exclusive n c t t' d d' : reachable P n rm_new 0 c -> rm_depth c t d -> rm_depth c t' d' -> 0 < d -> 0 < d' -> t = t'.
  Proof.
    intros Hr H1 H2 Hd Hd'. apply depth_dep in H1, H2. destruct (RI_reachable _ _ Hr) as [_ Ho _]. unfold rown in Ho.
    destruct (r_locked (sh c)).
    - destruct Ho as (_ & _ & Hz). destruct (Nat.eq_dec t (r_owner (sh c))) as [->|Hn]; [|specialize (Hz _ Hn); lia].
      destruct (Nat.eq_dec t' (r_owner (sh c))) as [->|Hn]; [auto|specialize (Hz _ Hn); lia].
    - destruct Ho as [_ Hz]. specialize (Hz t). lia.
  Qed.

  Lemma rm_free n c : reachable P n rm_new 0 c -> (r_locked (sh c) = false <-> forall t d, rm_depth c t d -> d = 0).
  Proof.
    intros Hr. pose proof (RI_reachable _ _ Hr) as [Hst Ho _]. unfold rown in Ho. split.
    - intros E t d Hd. rewrite E in Ho. apply depth_dep in Hd. destruct Ho as [_ Hz]. now rewrite <- Hd, Hz.
    - intros H. destruct (r_locked (sh c)); auto. destruct Ho as (Hd & _). exfalso.
      assert (dep (thr c) (r_owner (sh c)) = 0); [|lia]. eapply H. eapply dep_depth; eauto. lia.
  Qed.

  Lemma rm_no_lost_wakeup n c t op : reachable P n rm_new 0 c -> quiescent c -> rm_blocked c t op ->
    rm_depth c t 0 /\ exists t' d, rm_depth c t' d /\ 0 < d.
  Proof.
    intros Hr Hq (l & cv & k & Ht). pose proof (RI_reachable _ _ Hr) as [Hst Ho Hw].
    pose proof (Forall_nth_error Hst Ht) as (_ & _ & -> & _ & Hk). pose proof (sumw_ge vA Ht) as Hg.
    split; [eexists; split; [exact Ht|reflexivity]|].
    assert (HA : 0 < sumw vA (thr c)) by (destruct Hk as [-> | ->]; simpl in Hg; lia).
    destruct (Hw HA) as [E|HR].
    - unfold rown in Ho. rewrite E in Ho. exists (r_owner (sh c)), (dep (thr c) (r_owner (sh c))).
      split; [eapply dep_depth; eauto|]; lia.
    - exfalso. destruct (sumw_pos vR HR) as (j & x & Hj & Hx). destruct (quiescent_settled Hq Hj) as [(l' & ->)|(l' & op2 & cv' & k' & ->)]; simpl in Hx; lia.
  Qed.

  (** The owner is never made to wait. *)
  Lemma rm_owner_gets_it n c t op ps e c1 c2 d : reachable P n rm_new 0 c -> rm_depth c t d -> 0 < d -> op <> RUnlock ->
    step P c (LCall bool t op) = Some c1 -> step P c1 (LRun rop t ps e) = Some c2 ->
    hist c2 = EDone t op true :: hist c1 /\ rm_depth c2 t (S d) /\ r_locked (sh c2) = true.
  Proof.
    intros Hr Hd Hp Hop H1 H2. pose proof (depth_dep _ _ _ Hd) as Hdep. pose proof (RI_reachable _ _ Hr) as [_ Ho _]. unfold rown in Ho.
    cbn [step] in H1. destruct (nth_error (thr c) t) as [x|] eqn:Ht; [|discriminate]. destruct x as [l| | | |]; try discriminate.
    assert (l = d) by (destruct Hd as (x & Hx & Hl); rewrite Ht in Hx; injection Hx as <-; exact Hl). subst l.
    destruct (pre _ d op) eqn:Hpre; [|discriminate]. injection H1 as <-. cbn [step thr sh hist] in H2.
    rewrite (nth_error_upd_same _ _ (nth_error_lt Ht)) in H2. cbn [frag rmprog start] in H2.
    assert (E : r_locked (sh c) = true /\ r_owner (sh c) = t).
    { destruct (r_locked (sh c)); [|destruct Ho as [_ Hz]; specialize (Hz t); lia]. split; auto.
      destruct Ho as (_ & _ & Hz). destruct (Nat.eq_dec t (r_owner (sh c))); auto. specialize (Hz _ n0). lia. }
    destruct E as [E1 E2]. simpl in Hpre. apply andb_prop in Hpre as [Ha _]. apply Hallow in Ha.
    unfold rfrag, r_mine, r_again, r_take, r_loop in H2. rewrite E1, E2, Nat.eqb_refl in H2.
    destruct op as [| | |dd|]; try congruence; try (destruct dd; try discriminate Ha); cbn -[Nat.modulo] in H2; injection H2 as <-; cbn -[Nat.modulo];
      (split; [reflexivity|]); (split; [|auto]);
      (eexists; split; [cbn [thr]; rewrite upd_upd; apply (nth_error_upd_same _ _ (nth_error_lt Ht))|reflexivity]).
  Qed.

  Lemma rm_no_crash n c t : reachable P n rm_new 0 c -> nth_error (thr c) t <> Some (Crashed rk rop unit nat).
  Proof. intros Hr Ht. destruct (RI_reachable _ _ Hr) as [Hst _ _]. apply (Forall_nth_error Hst Ht). Qed.

  Lemma rm_ranked : ranked P (fun k => match k with RD => 1 | _ => 0 end).
  Proof.
    intros t e k s s' ns o. cbn [frag rmprog]. unfold rfrag, r_loop, r_take, r_again.
    destruct k as [op| | |]; try destruct op; try destruct d; intros H;
      repeat match type of H with context [if ?b then _ else _] => destruct b end; inversion H; subst; auto.
  Qed.

  Lemma rm_comes_to_rest n c : reachable P n rm_new 0 c ->
    exists ls c', run P c ls = Some c' /\ quiescent c' /\
      Forall (fun lb => match lb with LRun _ _ _ _ => True | _ => False end) ls.
  Proof.
    intros Hr. destruct (ranked_settles true rm_ranked Hr) as (ls & c' & H1 & [H2|H2] & H3); [eauto|].
    exfalso. apply In_nth_error in H2 as [i Hi]. eapply rm_no_crash; [|exact Hi]. eapply reachable_run; eauto.
  Qed.

  Lemma rm_try_exact n c t ps e c1 c2 r : reachable P n rm_new 0 c ->
    step P c (LCall bool t RTry) = Some c1 -> step P c1 (LRun rop t ps e) = Some c2 -> hist c2 = EDone t RTry r :: hist c1 ->
    r = true <-> forall t' d, t' <> t -> rm_depth c t' d -> d = 0.
  Proof.
    intros Hr H1 H2 Hh. pose proof (RI_reachable _ _ Hr) as [_ Ho _]. unfold rown in Ho.
    cbn [step] in H1. destruct (nth_error (thr c) t) as [x|] eqn:Ht; [|discriminate]. destruct x as [l| | | |]; try discriminate.
    destruct (pre _ l RTry); [|discriminate]. injection H1 as <-. cbn [step thr sh hist] in H2.
    rewrite (nth_error_upd_same _ _ (nth_error_lt Ht)) in H2. cbn [frag rmprog start] in H2. cbn [rfrag] in H2.
    destruct (r_locked (sh c)) eqn:E; [destruct (Nat.eqb_spec (r_owner (sh c)) t) as [Eo|Eo]|]; unfold r_take in H2; cbn -[Nat.modulo] in H2; injection H2 as <-; cbn in Hh; injection Hh as <-.
    - split; auto. intros _ t' d Hne Hd. apply depth_dep in Hd. destruct Ho as (_ & _ & Hz). rewrite <- Hd. apply Hz. congruence.
    - split; [discriminate|]. intros H. exfalso. destruct Ho as (Hd & _ & _).
      assert (dep (thr c) (r_owner (sh c)) = 0); [|lia]. eapply H; [exact Eo|]. eapply dep_depth; eauto. lia.
    - split; auto. intros _ t' d Hne Hd. apply depth_dep in Hd. destruct Ho as (_ & Hz). now rewrite <- Hd.
  Qed.
End RM.

(** ** Nesting deeper than the counter *)
Section Deep.
  Variable W : nat.
  Hypothesis HW : 1 <= W.
  Notation P := (rmprog W (fun _ => true) (S W)).

  Lemma deep_reach k : k <= S W ->
    exists h, reachable P 2 rm_new 0 (MkCfg (MkRM (negb (k =? 0)) 0 (k mod W)) [Idle rk rop unit k; Idle rk rop unit 0] h).
  Proof.
    induction k as [|k IH]; intros Hk.
    - exists []. exists []. cbn -[Nat.modulo]. rewrite Nat.mod_0_l by lia. reflexivity.
    - destruct IH as [h Hr]; [lia|]. eexists. eapply reachable_run with (ls := [LCall bool 0 RLock; LRun rop 0 [] true]); [exact Hr|].
      assert (E : S (k mod W) mod W = S k mod W).
      { rewrite <- (Nat.add_1_l (k mod W)), <- (Nat.add_1_l k). symmetry. rewrite (Nat.add_mod 1 k W) by lia. rewrite (Nat.add_mod 1 (k mod W) W) by lia.
        now rewrite Nat.mod_mod by lia. }
      assert (E2 : pre P k RLock = true) by (cbn -[Nat.ltb]; apply Nat.ltb_lt; lia).
      cbn [run step nth_error thr]. rewrite E2. cbn [run step nth_error thr upd sh hist frag rmprog start].
      unfold rfrag, r_mine, r_again, r_loop, r_take. cbn [r_locked r_owner r_count].
      destruct k; cbn [negb Nat.eqb andb]; cbn -[Nat.modulo]; rewrite E; reflexivity.
  Qed.

  Lemma too_deep : exists c d, reachable P 2 rm_new 0 c /\ rm_depth c 0 d /\ 0 < d /\ rm_depth c 1 1.
  Proof.
    destruct (deep_reach (S W) (le_n _)) as [h Hr].
    assert (E : S W mod W = 1 \/ W = 1).
    { destruct (Nat.eq_dec W 1); auto. left. replace (S W) with (1 + 1 * W) by lia. rewrite Nat.mod_add by lia. apply Nat.mod_small. lia. }
    assert (E0 : (match S W mod W with 0 => W - 1 | S n => n end) = 0).
    { destruct E as [-> | ->]; reflexivity. }
    eexists. exists W. split; [eapply reachable_run with (ls := [LCall bool 0 RUnlock; LRun rop 0 [] true; LCall bool 1 RTry; LRun rop 1 [] true]); [exact Hr|]|].
    - cbn [run step nth_error thr pre rmprog rpre Nat.ltb Nat.leb andb].
      cbn [run step nth_error thr upd sh hist frag rmprog start].
      cbn [rfrag r_count r_locked r_owner]. rewrite E0. cbn -[Nat.modulo]. rewrite Nat.sub_0_r. reflexivity.
    - split; [eexists; split; reflexivity|]. split; [lia|]. eexists; split; reflexivity.
  Qed.
End Deep.
