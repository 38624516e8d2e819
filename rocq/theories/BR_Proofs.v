(** * Proofs about boost::barrier *)

From Verif Require Import MonTrace BR_Model BR_Spec.

Notation btst := (tstat bk bop bcv unit).

Lemma calls_call t op h : calls (ECall bres t op :: h) = S (calls h). Proof. reflexivity. Qed.
Lemma calls_done t op r h : calls (EDone t op r :: h) = calls h. Proof. reflexivity. Qed.
Lemma trues_call t op h : trues (ECall bres t op :: h) = trues h. Proof. reflexivity. Qed.
Lemma falses_call t op h : falses (ECall bres t op :: h) = falses h. Proof. reflexivity. Qed.
Lemma trues_done t op r h :
  trues (EDone t op r :: h) = match r with BRet true => 1 | _ => 0 end + trues h.
Proof. destruct r as [[]| |]; reflexivity. Qed.
Lemma falses_done t op r h :
  falses (EDone t op r :: h) = match r with BRet false => 1 | _ => 0 end + falses h.
Proof. destruct r as [[]| |]; reflexivity. Qed.

Lemma trues_le e h : trues h <= trues (e :: h).
Proof. unfold trues; simpl. destruct (is_true e); simpl; lia. Qed.

Definition intrs (h : list bevent) : nat :=
  length (filter (fun e => match e with EDone _ _ BInterrupted => true | _ => false end) h).
Lemma intrs_call t op h : intrs (ECall bres t op :: h) = intrs h. Proof. reflexivity. Qed.
Lemma intrs_done t op r h :
  intrs (EDone t op r :: h) = match r with BInterrupted => 1 | _ => 0 end + intrs h.
Proof. destruct r as [[]| |]; reflexivity. Qed.

(** Weights of a thread. *)
Definition startw (x : btst) : nat := match x with Ready _ _ _ BStart => 1 | _ => 0 end.
Definition intrw (x : btst) : nat := match x with Ready _ _ _ BIntr => 1 | _ => 0 end.
Definition gof (x : btst) : option nat :=
  match x with Ready _ _ _ (BWaiting g) | Asleep _ _ _ (BWaiting g) => Some g | _ => None end.
Definition curw (T : nat) (x : btst) : nat := match gof x with Some g => if g =? T then 1 else 0 | None => 0 end.
Definition oldw (T : nat) (x : btst) : nat := match gof x with Some g => if g <? T then 1 else 0 | None => 0 end.
Arguments curw T x /.
Arguments oldw T x /.
Definition tailw (x : btst) : nat := match x with Tail _ _ _ _ => 1 | _ => 0 end.
Definition staleb (T : nat) (x : btst) : nat :=
  match x with Asleep _ _ _ (BWaiting g) => if g <? T then 1 else 0 | _ => 0 end.

Definition okb (T : nat) (x : btst) : Prop :=
  match x with
  | Ready _ _ _ (BWaiting g) => g <= T
  | Asleep _ _ _ (BWaiting g) => g <= T
  | Asleep _ _ _ _ => False
  | Tail _ _ _ ns => ns = [NAll BCond]
  | Crashed _ _ _ _ => False
  | _ => True
  end.

Lemma okb_wake T x : is_asleep x = true -> okb T x -> okb T (wake x).
Proof. destruct x as [| |l op c []| |]; simpl; tauto. Qed.
Lemma okb_le T T' x : T <= T' -> okb T x -> okb T' x.
Proof. destruct x as [|l op []|l op c []| |]; simpl; intuition lia. Qed.
Lemma gof_wake T x : okb T x -> gof (wake x) = gof x.
Proof. destruct x as [| |l op c []| |]; simpl; tauto. Qed.

Lemma sumw_woken (w : btst -> nat) T l l' :
  (forall x, okb T x -> is_asleep x = true -> w (wake x) = w x) ->
  Forall (okb T) l -> woken_rel l l' -> sumw w l' = sumw w l.
Proof.
  intros Hw HF [Hlen H]. revert l' Hlen H.
  induction HF as [|x l Hx HF IH]; intros [|y l'] Hlen H; simpl in *; try discriminate; auto.
  assert (w y = w x).
  { destruct (H 0 x eq_refl) as [H0|[Ha H0]]; simpl in H0; injection H0 as ->; auto. }
  rewrite (IH l'); [lia|lia|]. intros i z Hz. apply (H (Datatypes.S i) z Hz).
Qed.

Lemma curw_next T l : Forall (okb T) l -> sumw (curw (S T)) l = 0.
Proof.
  intros HF. apply sumw_zero. intros x Hin. rewrite Forall_forall in HF. specialize (HF _ Hin).
  unfold curw. destruct x as [|l0 op []|l0 op c []| |]; simpl in *; auto;
    destruct (g =? S T) eqn:He; auto; apply Nat.eqb_eq in He; lia.
Qed.

Lemma oldw_next T l : Forall (okb T) l -> sumw (oldw (S T)) l = sumw (oldw T) l + sumw (curw T) l.
Proof.
  intros HF. rewrite <- sumw_plus. apply sumw_ext. intros x Hin. rewrite Forall_forall in HF. specialize (HF _ Hin).
  assert (G : forall g, g <= T -> (if g <? S T then 1 else 0) = (if g <? T then 1 else 0) + (if g =? T then 1 else 0)).
  { intros g Hg. destruct (g <? S T) eqn:A; destruct (g <? T) eqn:B; destruct (g =? T) eqn:D; auto;
      rewrite ?Nat.ltb_lt, ?Nat.ltb_ge, ?Nat.eqb_eq, ?Nat.eqb_neq in *; lia. }
  unfold curw, oldw. destruct x as [|l0 op []|l0 op c []| |]; simpl in *; auto.
Qed.

Section Fixed.
  Variables (W : nat) (E : Type) (fct : E -> option nat) (intr : bool) (n : nat).
  Hypothesis Hn : 0 < n.
  Hypothesis Hfct : forall e, fct e = Some n.

  Notation P := (brprog W fct intr).

  Record BI (c : brconf) : Prop := {
    bi_ok : Forall (okb (trues (hist c))) (thr c);
    bi_gen : b_gen (sh c) = trues (hist c);
    bi_lo : 0 < b_count (sh c);
    bi_hi : b_count (sh c) <= n;
    bi_calls : calls (hist c) = n * trues (hist c) + (n - b_count (sh c)) + sumw startw (thr c);
    bi_cur : sumw (curw (trues (hist c))) (thr c) <= n - b_count (sh c);
    bi_cur' : intr = false -> sumw (curw (trues (hist c))) (thr c) = n - b_count (sh c);
    bi_old' : intr = false -> falses (hist c) + sumw (oldw (trues (hist c))) (thr c) = (n - 1) * trues (hist c);
    bi_intr : intr = false -> intrs (hist c) + sumw intrw (thr c) = 0;
    bi_all : calls (hist c) = trues (hist c) + falses (hist c) + intrs (hist c) + sumw startw (thr c)
              + sumw (curw (trues (hist c))) (thr c) + sumw (oldw (trues (hist c))) (thr c) + sumw intrw (thr c);
    bi_stale : sumw tailw (thr c) = 0 -> sumw (staleb (trues (hist c))) (thr c) = 0
  }.

  Definition BInv (c : brconf) : Prop := trues (hist c) < W -> BI c.

  Lemma wake_facts T l l' : Forall (okb T) l -> woken_rel l l' ->
    Forall (okb T) l' /\ sumw startw l' = sumw startw l /\ sumw intrw l' = sumw intrw l /\
    (forall T', sumw (curw T') l' = sumw (curw T') l) /\ (forall T', sumw (oldw T') l' = sumw (oldw T') l) /\
    sumw tailw l' = sumw tailw l /\ (forall T', sumw (staleb T') l' <= sumw (staleb T') l).
  Proof.
    intros HF Hw.
    split; [eapply woken_Forall; eauto; intros x; apply okb_wake|].
    split; [|split; [|split; [|split; [|split]]]].
    - eapply sumw_woken; eauto. intros [| |l0 op c []| |]; simpl; tauto.
    - eapply sumw_woken; eauto. intros [| |l0 op c []| |]; simpl; tauto.
    - intros T'. eapply sumw_woken; eauto. intros x Hx _. unfold curw. rewrite (gof_wake T); auto.
    - intros T'. eapply sumw_woken; eauto. intros x Hx _. unfold oldw. rewrite (gof_wake T); auto.
    - eapply sumw_woken; eauto. intros [| |l0 op c []| |]; simpl; tauto.
    - intros T'. apply woken_sumw_le; auto. intros [| |l0 op c []| |]; simpl; try discriminate; lia.
  Qed.

  Ltac bi :=
    let Hi := fresh "Hi" in
    try (intros Hi; repeat match goal with H : ?A -> _ |- _ =>
           match type of A with Prop => first [specialize (H Hi)|specialize (H ltac:(lia))|clear H] end end; lia).

  Lemma noop_step c (x y : btst) t :
    nth_error (thr c) t = Some x -> okb (trues (hist c)) y ->
    startw y = startw x -> intrw y = intrw x -> gof y = gof x -> tailw y = tailw x ->
    (staleb (trues (hist c)) y <= staleb (trues (hist c)) x) ->
    BI c -> BI (MkCfg (sh c) (upd (thr c) t y) (hist c)).
  Proof.
    intros Ht Hy H1 H2 H3 H4 H5 B. set (T := trues (hist c)) in *.
    pose proof (sumw_upd startw y Ht). pose proof (sumw_upd intrw y Ht).
    pose proof (sumw_upd (curw T) y Ht). pose proof (sumw_upd (oldw T) y Ht).
    pose proof (sumw_upd tailw y Ht). pose proof (sumw_upd (staleb T) y Ht).
    assert (curw T y = curw T x) by (unfold curw; rewrite H3; auto).
    assert (oldw T y = oldw T x) by (unfold oldw; rewrite H3; auto).
    destruct B. fold T in bi_ok0, bi_gen0, bi_calls0, bi_cur0, bi_cur'0, bi_old'0, bi_all0, bi_stale0.
    constructor; cbn [sh thr hist]; fold T; auto; try lia; try (apply Forall_upd; auto; fail); bi.
  Qed.

  Lemma BInv_step c c' : BInv c -> stepcase P c c' -> BInv c'.
  Proof.
    intros HB Hs HT. destruct Hs as
     [t l op Ht Hp ->|t ps e l op k s' ns o thr' Ht Hfr Hd ->|t p l n0 ns thr' Ht Hd ->
     |t l op cv k Ht ->|t l op cv k k' Ht Hk ->|t l op cv k k' Ht Hk ->|t l op k k' Ht Hk ->];
      cbn [hist] in HT.
    - rewrite trues_call in HT. specialize (HB HT). set (T := trues (hist c)) in *.
      set (y := Ready bcv l op BStart).
      pose proof (sumw_upd startw y Ht). pose proof (sumw_upd intrw y Ht).
      pose proof (sumw_upd (curw T) y Ht). pose proof (sumw_upd (oldw T) y Ht).
      pose proof (sumw_upd tailw y Ht). pose proof (sumw_upd (staleb T) y Ht).
      subst y. cbn [startw intrw gof tailw staleb curw oldw] in *.
      destruct HB; subst T; constructor; cbn [sh thr hist start brprog];
        rewrite ?calls_call, ?trues_call, ?falses_call, ?intrs_call; auto; try lia; bi.
      apply Forall_upd; simpl; auto.
    - assert (HT0 : trues (hist c) < W).
      { destruct o as [r|r ns0| | |]; cbn [after snd] in HT; try (eapply Nat.le_lt_trans; [apply trues_le|exact HT]); exact HT. }
      specialize (HB HT0). pose proof (deliver_all_woken Hd) as Hw.
      assert (Ht' : nth_error thr' t = Some (Ready bcv l op k)) by (eapply woken_not_asleep; eauto).
      destruct (wake_facts _ _ _ (bi_ok _ HB) Hw) as (F1 & F2 & F3 & F4 & F5 & F6 & F7).
      pose proof (Forall_nth_error (bi_ok _ HB) Ht) as Hx.
      set (T := trues (hist c)) in *. cbn [frag brprog] in Hfr.
      set (y := fst (after P t l op o (hist c))) in *.
      pose proof (sumw_upd startw y Ht') as U1. pose proof (sumw_upd intrw y Ht') as U2.
      pose proof (sumw_upd (curw T) y Ht') as U3. pose proof (sumw_upd (oldw T) y Ht') as U4.
      pose proof (sumw_upd tailw y Ht') as U5. pose proof (sumw_upd (staleb T) y Ht') as U6.
      rewrite F2 in U1. rewrite F3 in U2. rewrite F4 in U3. rewrite F5 in U4. rewrite F6 in U5.
      specialize (F7 T). 
      destruct HB as [B1 B2 B3 B4 B5 B6 B6' B7 B8 B9 B10].
      fold T in B1, B2, B5, B6, B6', B7, B9, B10.
      destruct k as [|g|]; cbn in Hfr.
      + destruct (b_count (sh c)) as [|cc] eqn:Hc; [lia|]. cbn [udec] in Hfr.
        destruct (cc =? 0) eqn:Hcc; [apply Nat.eqb_eq in Hcc; subst cc|apply Nat.eqb_neq in Hcc].
        * rewrite Hfct in Hfr. destruct (n =? 0) eqn:Hn0; [apply Nat.eqb_eq in Hn0; lia|].
          inversion Hfr; subst s' ns o; clear Hfr. subst y. cbn [after finish fst snd next brprog] in *.
          rewrite trues_done in HT. cbn in HT. fold T in HT.
          cbn [startw intrw curw oldw gof tailw staleb] in U1, U2, U3, U4, U5, U6.
          assert (Fu : Forall (okb T) (upd thr' t (Tail bk bop l [NAll BCond]))).
          { apply Forall_upd; simpl; auto. }
          pose proof (curw_next _ _ Fu) as N1. pose proof (oldw_next _ _ Fu) as N2.
          constructor; cbn [sh thr hist b_count b_gen];
            rewrite ?calls_done, ?trues_done, ?falses_done, ?intrs_done; cbn [plus]; fold T;
            rewrite ?N1, ?N2; auto; try lia.
          -- eapply Forall_impl; [|exact Fu]. intros x. apply okb_le. lia.
          -- unfold uinc. rewrite B2. destruct (S T =? W) eqn:HW; auto. apply Nat.eqb_eq in HW. lia.
          -- intros Hi. specialize (B6' Hi). specialize (B7 Hi).
             replace ((n - 1) * S T) with ((n - 1) * T + (n - 1)) by lia. lia.
          -- intros Hi. specialize (B8 Hi). lia.
        * inversion Hfr; subst s' ns o; clear Hfr. subst y. cbn [after fst snd] in *.
          cbn [startw intrw gof tailw staleb] in U1, U2, U5, U6. cbn [gof curw oldw] in U3, U4.
          rewrite B2, Nat.eqb_refl in *. rewrite Nat.ltb_irrefl in *.
          constructor; cbn [sh thr hist b_count b_gen]; fold T; auto; try lia; bi.
          apply Forall_upd; simpl; auto.
      + simpl in Hx. destruct (g =? b_gen (sh c)) eqn:Hg.
        * apply Nat.eqb_eq in Hg. inversion Hfr; subst s' ns o; clear Hfr. subst y. cbn [after fst snd] in *.
          cbn [startw intrw gof tailw staleb] in U1, U2, U5, U6. cbn [gof curw oldw] in U3, U4.
          rewrite B2 in Hg. subst g. rewrite Nat.ltb_irrefl in *.
          constructor; cbn [sh thr hist b_count b_gen]; fold T; auto; try lia; bi.
          apply Forall_upd; simpl; auto.
        * apply Nat.eqb_neq in Hg. inversion Hfr; subst s' ns o; clear Hfr. subst y. cbn [after fst snd next brprog] in *.
          cbn [startw intrw gof tailw staleb] in U1, U2, U5, U6. cbn [gof curw oldw] in U3, U4.
         
          assert (Hlt : (g <? T) = true) by (apply Nat.ltb_lt; lia).
          assert (Hne : (g =? T) = false) by (apply Nat.eqb_neq; lia).
          rewrite Hlt in U4. rewrite Hne in U3.
          constructor; cbn [sh thr hist];
            rewrite ?calls_done, ?trues_done, ?falses_done, ?intrs_done; cbn [plus]; fold T; auto; try lia; bi.
          apply Forall_upd; simpl; auto.
      + inversion Hfr; subst s' ns o; clear Hfr. subst y. cbn [after fst snd next brprog] in *.
        cbn [startw intrw gof tailw staleb] in U1, U2, U5, U6. cbn [gof curw oldw] in U3, U4.
       
        constructor; cbn [sh thr hist];
            rewrite ?calls_done, ?trues_done, ?falses_done, ?intrs_done; cbn [plus]; fold T; auto; try lia; bi.
        apply Forall_upd; simpl; auto.
    - specialize (HB HT). pose proof (Forall_nth_error (bi_ok _ HB) Ht) as Hx. cbn in Hx.
      injection Hx as -> ->.
      pose proof (deliver_woken Hd) as Hw.
      assert (Ht' : nth_error thr' t = Some (Tail bk bop l [NAll BCond])) by (eapply woken_not_asleep; eauto).
      destruct (wake_facts _ _ _ (bi_ok _ HB) Hw) as (F1 & F2 & F3 & F4 & F5 & F6 & F7).
      assert (Haw : forall T, sumw (staleb T) thr' = 0).
      { intros T. simpl in Hd. injection Hd as <-. rewrite sumw_map. apply sumw_zero.
        intros x _. unfold wake_if. destruct x; reflexivity. }
      set (T := trues (hist c)) in *. cbn [finish]. set (y := Idle bk bop bcv l) in *.
      pose proof (sumw_upd startw y Ht') as U1. pose proof (sumw_upd intrw y Ht') as U2.
      pose proof (sumw_upd (curw T) y Ht') as U3. pose proof (sumw_upd (oldw T) y Ht') as U4.
      pose proof (sumw_upd (staleb T) y Ht') as U6.
      rewrite F2 in U1. rewrite F3 in U2. rewrite F4 in U3. rewrite F5 in U4. rewrite Haw in U6.
      subst y. cbn [startw intrw gof tailw staleb curw oldw] in *.
      destruct HB; subst T; constructor; cbn [sh thr hist]; auto; try lia; bi.
      apply Forall_upd; simpl; auto.
    - specialize (HB HT). pose proof (Forall_nth_error (bi_ok _ HB) Ht) as Hx. cbn in Hx.
      destruct k as [|g|]; try contradiction.
      apply (noop_step c _ _ t Ht); auto. simpl. lia.
    - discriminate.
    - specialize (HB HT). pose proof (Forall_nth_error (bi_ok _ HB) Ht) as Hx. cbn in Hx, Hk.
      destruct k as [|g|]; try discriminate. cbn in Hk. destruct intr eqn:Hi; [|discriminate]. injection Hk as <-.
      set (T := trues (hist c)) in *. set (y := Ready bcv l op BIntr) in *.
      pose proof (sumw_upd startw y Ht) as U1. pose proof (sumw_upd intrw y Ht) as U2.
      pose proof (sumw_upd (curw T) y Ht) as U3. pose proof (sumw_upd (oldw T) y Ht) as U4.
      pose proof (sumw_upd tailw y Ht) as U5. pose proof (sumw_upd (staleb T) y Ht) as U6.
      subst y. cbn [startw intrw gof tailw staleb curw oldw] in *.
      assert ((if g =? T then 1 else 0) + (if g <? T then 1 else 0) = 1).
      { destruct (Nat.eqb_spec g T); destruct (Nat.ltb_spec g T); lia. }
      destruct HB; subst T; constructor; cbn [sh thr hist]; auto; try lia; try (rewrite Hi; discriminate); bi.
      apply Forall_upd; simpl; auto.
    - specialize (HB HT). pose proof (Forall_nth_error (bi_ok _ HB) Ht) as Hx. cbn in Hx, Hk.
      destruct k as [|g|]; try discriminate. cbn in Hk. destruct intr eqn:Hi; [|discriminate]. injection Hk as <-.
      set (T := trues (hist c)) in *. set (y := Ready bcv l op BIntr) in *.
      pose proof (sumw_upd startw y Ht) as U1. pose proof (sumw_upd intrw y Ht) as U2.
      pose proof (sumw_upd (curw T) y Ht) as U3. pose proof (sumw_upd (oldw T) y Ht) as U4.
      pose proof (sumw_upd tailw y Ht) as U5. pose proof (sumw_upd (staleb T) y Ht) as U6.
      subst y. cbn [startw intrw gof tailw staleb curw oldw] in *.
      assert ((if g =? T then 1 else 0) + (if g <? T then 1 else 0) = 1).
      { destruct (Nat.eqb_spec g T); destruct (Nat.ltb_spec g T); lia. }
      destruct HB; subst T; constructor; cbn [sh thr hist]; auto; try lia; try (rewrite Hi; discriminate); bi.
      apply Forall_upd; simpl; auto.
  Qed.

  Lemma BInv_reachable m c : reachable P m (MkBar n 0) tt c -> BInv c.
  Proof.
    apply (reachable_inv P BInv).
    - intros HT. constructor; cbn -[sumw]; rewrite ?sumw_repeat; cbn; auto; try lia.
      apply Forall_forall. intros x Hx. apply repeat_spec in Hx. subst x. exact I.
    - apply BInv_step.
  Qed.

  (** At rest: the calls made so far form complete groups, all of whose members have
      returned, exactly one per group with true, and an incomplete group that is blocked. *)
  Lemma at_rest m c : intr = false -> reachable P m (MkBar n 0) tt c -> trues (hist c) < W -> quiescent c ->
    trues (hist c) = calls (hist c) / n /\
    falses (hist c) = (n - 1) * (calls (hist c) / n) /\
    blocked_threads c = calls (hist c) mod n.
  Proof.
    intros Hi Hr HT Hq. destruct (BInv_reachable _ _ Hr HT) as [B1 B2 B3 B4 B5 B6 B6' B7 B8 B9 B10].
    assert (S0 : sumw startw (thr c) = 0) by (apply (quiescent_sumw startw Hq); auto; intros l op cv k; reflexivity).
    assert (T0 : sumw tailw (thr c) = 0) by (apply (quiescent_sumw tailw Hq); auto).
    specialize (B6' Hi). specialize (B7 Hi). specialize (B10 T0). rewrite S0 in B5.
    assert (O0 : sumw (oldw (trues (hist c))) (thr c) = 0).
    { apply sumw_zero. intros x Hin. pose proof (sumw_zero_inv _ B10 Hin) as H0.
      apply In_nth_error in Hin as [i Hin].
      destruct (quiescent_settled Hq Hin) as [[l ->]|(l & op & cv & k & ->)]; [reflexivity|].
      destruct k; simpl in *; auto. }
    assert (HB : blocked_threads c = sumw (curw (trues (hist c))) (thr c)).
    { unfold blocked_threads. clear - B1 B10 Hq. unfold quiescent in Hq.
      induction (thr c) as [|x l IH]; [reflexivity|].
      cbn [forallb] in Hq. apply andb_true_iff in Hq as [Hq1 Hq2]. inversion B1; subst.
      cbn [sumw] in B10. cbn [sumw filter].
      destruct x as [l0|l0 op k|l0 op cv k| |]; try discriminate.
      - rewrite IH; auto.
      - destruct k as [|g|]; simpl in H1; try contradiction. cbn [length]. rewrite IH; auto; [|lia].
        cbn [staleb] in B10. unfold curw at 2; cbn [gof].
        destruct (Nat.ltb_spec g (trues (hist c))); [lia|].
        destruct (Nat.eqb_spec g (trues (hist c))); lia. }
    assert (HD : calls (hist c) / n = trues (hist c)).
    { symmetry. apply Nat.div_unique with (r := n - b_count (sh c)); lia. }
    assert (HM : calls (hist c) mod n = n - b_count (sh c)).
    { symmetry. apply Nat.mod_unique with (q := trues (hist c)); lia. }
    rewrite HD, HM, HB. repeat split; lia.
  Qed.

  (** At any time, with or without interruption. *)
  Lemma group_counts m c : reachable P m (MkBar n 0) tt c -> trues (hist c) < W ->
    n * trues (hist c) <= calls (hist c) /\
    (intr = false -> falses (hist c) <= (n - 1) * trues (hist c)).
  Proof.
    intros Hr HT. destruct (BInv_reachable _ _ Hr HT). split; [lia|]. intros Hi. specialize (bi_old'0 Hi). lia.
  Qed.

  Lemma rest_with_intr m c : reachable P m (MkBar n 0) tt c -> trues (hist c) < W -> quiescent c ->
    trues (hist c) = calls (hist c) / n /\ blocked_threads c <= calls (hist c) mod n.
  Proof.
    intros Hr HT Hq. destruct (BInv_reachable _ _ Hr HT) as [B1 B2 B3 B4 B5 B6 B6' B7 B8 B9 B10].
    assert (S0 : sumw startw (thr c) = 0) by (apply (quiescent_sumw startw Hq); auto; intros l op cv k; reflexivity).
    assert (T0 : sumw tailw (thr c) = 0) by (apply (quiescent_sumw tailw Hq); auto).
    specialize (B10 T0). rewrite S0 in B5.
    assert (HB : blocked_threads c = sumw (curw (trues (hist c))) (thr c)).
    { unfold blocked_threads. clear - B1 B10 Hq. unfold quiescent in Hq.
      induction (thr c) as [|x l IH]; [reflexivity|].
      cbn [forallb] in Hq. apply andb_true_iff in Hq as [Hq1 Hq2]. inversion B1; subst.
      cbn [sumw] in B10. cbn [sumw filter].
      destruct x as [l0|l0 op k|l0 op cv k| |]; try discriminate.
      - rewrite IH; auto.
      - destruct k as [|g|]; simpl in H1; try contradiction. cbn [length]. rewrite IH; auto; [|lia].
        cbn [staleb] in B10. unfold curw at 2; cbn [gof].
        destruct (Nat.ltb_spec g (trues (hist c))); [lia|].
        destruct (Nat.eqb_spec g (trues (hist c))); lia. }
    assert (HD : calls (hist c) / n = trues (hist c)).
    { symmetry. apply Nat.div_unique with (r := n - b_count (sh c)); lia. }
    assert (HM : calls (hist c) mod n = n - b_count (sh c)).
    { symmetry. apply Nat.mod_unique with (q := trues (hist c)); lia. }
    rewrite HD, HM, HB. split; lia.
  Qed.

  Lemma no_crash m c : reachable P m (MkBar n 0) tt c -> trues (hist c) < W -> ~ In (Crashed bk bop bcv unit) (thr c).
  Proof.
    intros Hr HT Hin. destruct (BInv_reachable _ _ Hr HT). rewrite Forall_forall in bi_ok0. apply (bi_ok0 _ Hin).
  Qed.

  (** ** Who releases whom *)

  Definition Hinv (c : brconf) : Prop :=
    forall t x, nth_error (thr c) t = Some x ->
      match x with
      | Ready _ _ op _ | Asleep _ op _ _ => in_wait t (hist c)
      | _ => True
      end /\
      forall g, gof x = Some g -> g < trues (hist c) ->
        exists a t' op b, hist c = a ++ EDone t' op (BRet true) :: b /\ in_wait t b /\
          forall op r, ~ In (EDone t op r) a.

  Lemma in_wait_cons t e h : in_wait t h -> (forall op r, e <> EDone t op r) -> in_wait t (e :: h).
  Proof.
    intros (h1 & h2 & -> & H) He. exists (e :: h1), h2. split; auto.
    intros op r [Hin|Hin]; [eapply He; eauto|eapply H; eauto].
  Qed.

  Lemma past_cons t e h :
    (exists a t' op b, h = a ++ EDone t' op (BRet true) :: b /\ in_wait t b /\ forall op r, ~ In (EDone t op r) a) ->
    (forall op r, e <> EDone t op r) ->
    exists a t' op b, e :: h = a ++ EDone t' op (BRet true) :: b /\ in_wait t b /\ forall op r, ~ In (EDone t op r) a.
  Proof.
    intros (a & t' & op & b & -> & H1 & H2) He. exists (e :: a), t', op, b. repeat split; auto.
    intros op0 r [Hin|Hin]; [eapply He; eauto|eapply H2; eauto].
  Qed.

  Lemma Hinv_step c c' : BInv c -> (trues (hist c) < W -> Hinv c) -> stepcase P c c' -> trues (hist c') < W -> Hinv c'.
  Proof.
    intros HB HH Hs HT.
    assert (HT0 : trues (hist c) < W).
    { destruct Hs as
       [t l op Ht Hp ->|t ps e l op k s' ns o thr' Ht Hfr Hd ->|t p l n0 ns thr' Ht Hd ->
       |t l op cv k Ht ->|t l op cv k k' Ht Hk ->|t l op cv k k' Ht Hk ->|t l op k k' Ht Hk ->]; auto.
      destruct o as [r|r ns0| | |]; cbn [after snd] in HT; try (eapply Nat.le_lt_trans; [apply trues_le|exact HT]); exact HT. }
    specialize (HB HT0). specialize (HH HT0).
    destruct Hs as
     [t l op Ht Hp ->|t ps e l op k s' ns o thr' Ht Hfr Hd ->|t p l n0 ns thr' Ht Hd ->
     |t l op cv k Ht ->|t l op cv k k' Ht Hk ->|t l op cv k k' Ht Hk ->|t l op k k' Ht Hk ->];
      cbn [hist] in *; intros t1 x1 Hx1; cbn [thr hist] in Hx1 |- *.
    - apply nth_error_upd in Hx1 as [(-> & -> & _)|(Hne & Hx1)].
      + split; [|discriminate]. exists [], (hist c). destruct op. split; auto.
      + destruct (HH _ _ Hx1) as [H1 H2]. split.
        * destruct x1; auto; apply in_wait_cons; auto; discriminate.
        * intros g Hg Hlt. apply past_cons; [|discriminate]. eapply H2; eauto.
    - pose proof (deliver_all_woken Hd) as Hw.
      destruct (wake_facts _ _ _ (bi_ok _ HB) Hw) as (F1 & _).
      assert (HH' : forall t x, nth_error thr' t = Some x ->
        match x with Ready _ _ op _ | Asleep _ op _ _ => in_wait t (hist c) | _ => True end /\
        forall g, gof x = Some g -> g < trues (hist c) ->
        exists a t' op b, hist c = a ++ EDone t' op (BRet true) :: b /\ in_wait t b /\
          forall op r, ~ In (EDone t op r) a).
      { intros t2 x2 Hx2. destruct (woken_inv Hw Hx2) as (x3 & Hx3 & [->|[Ha ->]]); [apply HH; auto|].
        pose proof (Forall_nth_error (bi_ok _ HB) Hx3) as Hok. destruct (HH _ _ Hx3) as [H1 H2].
        rewrite (gof_wake _ _ Hok). split; auto. destruct x3; auto. }
      cbn [frag brprog] in Hfr.
      assert (Hother : t <> t1 -> nth_error thr' t1 = Some x1 -> forall h', (h' = hist c \/ exists op r, h' = EDone t op r :: hist c) ->
        match x1 with Ready _ _ op _ | Asleep _ op _ _ => in_wait t1 h' | _ => True end /\
        (forall g, gof x1 = Some g -> g < trues (hist c) ->
        exists a t' op b, h' = a ++ EDone t' op (BRet true) :: b /\ in_wait t1 b /\
          forall op r, ~ In (EDone t1 op r) a)).
      { intros Hne Hx h' [->|(op1 & r1 & ->)]; [apply HH'; auto|]. destruct (HH' _ _ Hx) as [H1 H2]. split.
        - destruct x1; auto; apply in_wait_cons; auto; congruence.
        - intros g Hg Hlt. apply past_cons; [|congruence]. eapply H2; eauto. }
      pose proof (HH' t1 x1) as Hsame.
      destruct k as [|g|]; cbn in Hfr.
      + destruct HB as [B1 B2 B3 B4 B5 B6 B6' B7 B8 B9 B10].
        destruct (b_count (sh c)) as [|cc] eqn:Hc; [lia|]. cbn [udec] in Hfr.
        destruct (cc =? 0) eqn:Hcc.
        * rewrite Hfct in Hfr. destruct (n =? 0) eqn:Hn0; [apply Nat.eqb_eq in Hn0; lia|].
          inversion Hfr; subst s' ns o; clear Hfr. cbn [after finish fst snd next brprog] in *.
          apply nth_error_upd in Hx1 as [(-> & -> & _)|(Hne & Hx1)].
          { split; [exact I|discriminate]. }
          destruct (Hother Hne Hx1 _ (or_intror (ex_intro _ op (ex_intro _ (BRet true) eq_refl)))) as [H1 H2].
          split; auto. intros g Hg Hlt. rewrite trues_done in Hlt. cbn in Hlt.
          destruct (Nat.eq_dec g (trues (hist c))) as [->|Hng]; [|apply (H2 g); auto; lia].
          exists [], t, op, (hist c). split; [reflexivity|]. split; [|intros op0 r []].
          destruct (HH' _ _ Hx1) as [H3 _]. destruct x1; try discriminate; auto.
        * inversion Hfr; subst s' ns o; clear Hfr. cbn [after finish fst snd next brprog] in *.
          apply nth_error_upd in Hx1 as [(-> & -> & _)|(Hne & Hx1)].
          { split; [apply (HH _ _ Ht)|]. cbn. intros g Hg. injection Hg as <-. rewrite B2. lia. }
          apply (Hother Hne Hx1); auto.
      + destruct (g =? b_gen (sh c)) eqn:Hg; inversion Hfr; subst s' ns o; clear Hfr;
          cbn [after finish fst snd next brprog] in *;
          (apply nth_error_upd in Hx1 as [(-> & -> & _)|(Hne & Hx1)]; [|rewrite ?trues_done; apply (Hother Hne Hx1); eauto]).
        * split; [apply (HH _ _ Ht)|]. intros g0 Hg0. apply (HH _ _ Ht). exact Hg0.
        * split; [exact I|discriminate].
      + inversion Hfr; subst s' ns o; clear Hfr.
        cbn [after finish fst snd next brprog] in *.
        apply nth_error_upd in Hx1 as [(-> & -> & _)|(Hne & Hx1)]; [|rewrite ?trues_done; apply (Hother Hne Hx1); eauto].
        split; [exact I|discriminate].
    - apply nth_error_upd in Hx1 as [(-> & -> & _)|(Hne & Hx1)].
      + destruct ns; (split; [exact I|discriminate]).
      + destruct (woken_inv (deliver_woken Hd) Hx1) as (x3 & Hx3 & [->|[Ha ->]]); [apply HH; auto|].
        pose proof (Forall_nth_error (bi_ok _ HB) Hx3) as Hok. destruct (HH _ _ Hx3) as [H1 H2].
        rewrite (gof_wake _ _ Hok). split; auto. destruct x3; auto.
    - pose proof (Forall_nth_error (bi_ok _ HB) Ht) as Hok. cbn in Hok.
      apply nth_error_upd in Hx1 as [(-> & -> & _)|(Hne & Hx1)]; [|apply HH; auto].
      destruct k; try contradiction. exact (HH _ _ Ht).
    - discriminate.
    - apply nth_error_upd in Hx1 as [(-> & -> & _)|(Hne & Hx1)]; [|apply HH; auto].
      destruct k; try discriminate. cbn in Hk. destruct intr; [|discriminate]. injection Hk as <-.
      split; [apply (HH _ _ Ht)|discriminate].
    - apply nth_error_upd in Hx1 as [(-> & -> & _)|(Hne & Hx1)]; [|apply HH; auto].
      destruct k; try discriminate. cbn in Hk. destruct intr; [|discriminate]. injection Hk as <-.
      split; [apply (HH _ _ Ht)|discriminate].
  Qed.

  Lemma Hinv_reachable m c : reachable P m (MkBar n 0) tt c -> trues (hist c) < W -> Hinv c.
  Proof.
    apply (reachable_ind' (fun c => trues (hist c) < W -> Hinv c)).
    - intros _ t x Hx. simpl in Hx. apply nth_error_In, repeat_spec in Hx. subst x. split; [exact I|discriminate].
    - intros c0 c1 Hr HH Hs HT. eapply Hinv_step; eauto. eapply BInv_reachable; eauto.
  Qed.

  Lemma trues_app h1 h2 : trues (h1 ++ h2) = trues h1 + trues h2.
  Proof. unfold trues. rewrite filter_app, app_length. auto. Qed.

  Lemma released m c t op h1 h2 :
    reachable P m (MkBar n 0) tt c -> trues (hist c) < W ->
    hist c = h1 ++ EDone t op (BRet false) :: h2 ->
    exists a t' op' b, h2 = a ++ EDone t' op' (BRet true) :: b /\ in_wait t b /\ forall op r, ~ In (EDone t op r) a.
  Proof.
    intros Hr HT Hh.
    destruct (event_step P _ _ _ Hr Hh) as (c1 & lb & c2 & Hr1 & Hs & <- & Hh2 & _).
    assert (HT1 : trues (hist c1) < W).
    { rewrite Hh, trues_app in HT. pose proof (trues_le (EDone t op (BRet false)) (hist c1)). lia. }
    pose proof (Hinv_reachable _ _ Hr1 HT1) as HH. pose proof (BInv_reachable _ _ Hr1 HT1) as HB.
    apply step_inv in Hs. destruct Hs as
     [t0 l op0 Ht Hp ->|t0 ps e l op0 k s' ns o thr' Ht Hfr Hd ->|t0 p l n0 ns thr' Ht Hd ->
     |t0 l op0 cv k Ht ->|t0 l op0 cv k k' Ht Hk ->|t0 l op0 cv k k' Ht Hk ->|t0 l op0 k k' Ht Hk ->];
      cbn [hist] in Hh2; try discriminate;
      try (exfalso; apply (f_equal (@length _)) in Hh2; simpl in Hh2; lia).
    cbn [frag brprog] in Hfr. pose proof (Forall_nth_error (bi_ok _ HB) Ht) as Hok.
    destruct k as [|g|]; cbn in Hfr.
    - destruct (udec W (b_count (sh c1)) =? 0).
      + rewrite Hfct in Hfr. destruct (n =? 0); inversion Hfr; subst; cbn in Hh2; try discriminate;
          try (exfalso; apply (f_equal (@length _)) in Hh2; simpl in Hh2; lia).
      + inversion Hfr; subst; cbn in Hh2. exfalso; apply (f_equal (@length _)) in Hh2; simpl in Hh2; lia.
    - destruct (g =? b_gen (sh c1)) eqn:Hg; inversion Hfr; subst; cbn in Hh2.
      + exfalso; apply (f_equal (@length _)) in Hh2; simpl in Hh2; lia.
      + injection Hh2 as -> ->. apply Nat.eqb_neq in Hg. rewrite (bi_gen _ HB) in Hg. cbn in Hok.
        apply (HH _ _ Ht) with (g := g); [reflexivity|lia].
    - inversion Hfr; subst; cbn in Hh2. discriminate.
  Qed.
End Fixed.

Lemma br_direct W E (fct : E -> option nat) intr : direct (brprog W fct intr).
Proof.
  intros t e k s s' ns o Hf. cbn [frag brprog] in Hf.
  destruct k; simpl in Hf;
    repeat match type of Hf with
      | context [if ?b then _ else _] => destruct b
      | context [match fct e with _ => _ end] => destruct (fct e) end; inversion Hf; auto.
Qed.
