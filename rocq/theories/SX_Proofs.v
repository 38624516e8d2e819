(** * Proofs about serial_executor *)
From Verif Require Import MonitorLemmas MonWake MonTrace SX_Model SX_Spec.
Set Implicit Arguments.
Notation tst := (tstat xk xop xcv unit).

Fixpoint occ (i : nat) (l : list nat) : nat := match l with [] => 0 | j :: l' => (if i =? j then 1 else 0) + occ i l' end.
Lemma occ_app i l l' : occ i (l ++ l') = occ i l + occ i l'.
Proof. induction l; simpl; auto. lia. Qed.
Lemma occ_In i l : In i l <-> 0 < occ i l.
Proof. induction l as [|j l IH]; simpl; [split; [tauto|lia]|]. destruct (Nat.eqb_spec i j) as [->|Hn]; split; try lia; auto. - intros [->|H]; [congruence|]. rewrite IH in H. lia. - intros H. right. apply IH. lia. Qed.
Lemma take_nth_occ e l x l' : take_nth e l = Some (x, l') -> forall i, occ i l = (if i =? x then 1 else 0) + occ i l'.
Proof.
  revert e x l'. induction l as [|j l IH]; simpl; intros e x l' H; [discriminate|]. destruct e as [|e].
  - injection H as <- <-. auto.
  - destruct (take_nth e l) as [[y l'']|] eqn:E; injection H as <- <-; auto. intros i. simpl. rewrite (IH _ _ _ E). lia.
Qed.
Lemma take_nth_None e l : take_nth e l = None -> l = [].
Proof. destruct l as [|j l]; auto. destruct e; simpl; [discriminate|]. destruct (take_nth e l) as [[? ?]|]; discriminate. Qed.
Lemma finished_times i l : finished i l = true <-> 0 < times (End i) l.
Proof.
  induction l as [|[j|j] l IH]; simpl; [split; [discriminate|lia]|auto|]. rewrite orb_true_iff, IH, (Nat.eqb_sym j i). destruct (i =? j); split; auto; try lia. Qed.

(** weights of continuations *)
Definition wk (w : xk -> nat) (x : tst) : nat := match x with Ready _ _ _ k | Asleep _ _ _ k => w k | _ => 0 end.
Definition wsub (i : nat) (k : xk) : nat := match k with KSub _ j => if i =? j then 1 else 0 | _ => 0 end.
Definition wrun (i : nat) (k : xk) : nat := match k with KRun j => if i =? j then 1 else 0 | _ => 0 end.
Definition wwrk (k : xk) : nat := match k with KLoop | KPull MLoop | KPull MDrain | KSub MLoop _ | KSub MDrain _ | KWait MLoop _ | KWait MDrain _ => 1 | _ => 0 end.
Definition wany (k : xk) : nat := match k with KRun _ => 1 | _ => 0 end.
Definition wfly (k : xk) : nat := match k with KSub _ _ | KWait _ _ => 1 | _ => 0 end.
Definition wo (w : xk -> nat) (o : outcome xk xcv xres) : nat := match o with OYield _ _ k | OSleep _ _ k => w k | _ => 0 end.
Lemma wk_wake w (x : tst) : wk w (wake x) = wk w x.
Proof. destruct x; reflexivity. Qed.

Definition mop (m : mode) (op : xop) : Prop := match m with MTry => op = OTry | _ => op = OWorker end.
Definition okk (s : sx) (op : xop) (k : xk) : Prop :=
  match k with
  | KStart op' => op' = op
  | KLoop => op = OWorker
  | KPull m => mop m op /\ (m = MDrain -> clos s = true)
  | KSub m i | KWait m i => mop m op /\ (m = MDrain -> clos s = true) /\ i < nsub s /\ ~ In i (q s)
  | KRun i => op = OExec
  | KJoin => op = ODestroy /\ clos s = true
  end.
Definition blocked (s : sx) (cv : xcv) (k : xk) : Prop :=
  match cv with
  | CQ => k = KLoop /\ q s = [] /\ clos s = false
  | CF => exists m i, k = KWait m i /\ finished i (log s) = false
  | CD => k = KJoin /\ wdone s = false
  | CP => k = KStart OExec /\ pend s = []
  end.
Definition stat (s : sx) (x : tst) : Prop :=
  match x with Idle _ _ _ _ => True | Ready _ _ op k => okk s op k | Asleep _ op cv k => okk s op k /\ blocked s cv k | _ => False end.

Definition b2n (b : bool) : nat := if b then 1 else 0.
Record Inv (c : sxconf) : Prop := {
  v_st : Forall (stat (sh c)) (thr c);
  v_one : forall i, occ i (q (sh c)) + occ i (pend (sh c)) + sumw (wk (wsub i)) (thr c) + times (Beg i) (log (sh c)) = b2n (i <? nsub (sh c));
  v_run : forall i, times (End i) (log (sh c)) + sumw (wk (wrun i)) (thr c) = times (Beg i) (log (sh c));
  v_acc : nsub (sh c) = accepted (hist c);
  v_wrk : sumw (wk wwrk) (thr c) + b2n (wdone (sh c)) = b2n (wstart (sh c));
  v_wd : wdone (sh c) = true -> clos (sh c) = true /\ q (sh c) = [];
  v_des : forall t, In (EDone t ODestroy ROk) (hist c) -> wdone (sh c) = true }.

Record fpost (op : xop) (k : xk) (s s' : sx) (ns : list (notif xcv)) (o : outcome xk xcv xres) : Prop := {
  p_out : match o with ORet _ _ r => (op = OSubmit /\ r = ROk -> nsub s' = S (nsub s)) /\ (~ (op = OSubmit /\ r = ROk) -> nsub s' = nsub s) /\ (op = ODestroy -> wdone s' = true)
                     | OYield _ _ k' => okk s' op k' /\ nsub s' = nsub s | OSleep _ cv k' => okk s' op k' /\ blocked s' cv k' /\ nsub s' = nsub s | _ => False end;
  p_one : forall i, occ i (q s') + occ i (pend s') + wo (wsub i) o + times (Beg i) (log s') + b2n (i <? nsub s) = occ i (q s) + occ i (pend s) + wsub i k + times (Beg i) (log s) + b2n (i <? nsub s');
  p_run : forall i, times (End i) (log s') + wo (wrun i) o + times (Beg i) (log s) = times (End i) (log s) + wrun i k + times (Beg i) (log s');
  p_wrk : wo wwrk o + b2n (wdone s') + b2n (wstart s) = wwrk k + b2n (wdone s) + b2n (wstart s');
  p_wd : (wdone s = true -> clos s = true /\ q s = []) -> wdone s' = true -> clos s' = true /\ q s' = [];
  p_wdm : wdone s = true -> wdone s' = true;
  p_q : forall i, In i (q s') -> In i (q s) \/ i = nsub s;
  p_ns : nsub s <= nsub s';
  p_cl : clos s = true -> clos s' = true;
  p_nq : q s = [] /\ clos s = false -> ~ (q s' = [] /\ clos s' = false) -> In (NAll CQ) ns;
  p_nf : forall i, finished i (log s) = false -> finished i (log s') = true -> In (NAll CF) ns;
  p_nd : wdone s = false -> wdone s' = true -> In (NAll CD) ns;
  p_np : pend s = [] -> pend s' <> [] -> In (NAll CP) ns }.

Lemma b2n_S i n : b2n (i <? S n) = b2n (i <? n) + (if i =? n then 1 else 0).
Proof. unfold b2n. destruct (Nat.ltb_spec i (S n)), (Nat.ltb_spec i n), (Nat.eqb_spec i n); lia. Qed.
Local Arguments Nat.ltb : simpl never.
Local Arguments Nat.eqb : simpl never.

Ltac rt := split; [intros [? ?]; first [discriminate|auto]|split; [first [reflexivity|intros Hx; exfalso; apply Hx; auto]|first [discriminate|auto]]].
Lemma frag_ok t e k s s' ns o op : xfrag t e k s = (s', ns, o) -> okk s op k -> (wwrk k = 1 -> wdone s = false) -> (forall i, In i (q s) -> i < nsub s) ->
  (forall i, occ i (q s) <= 1) -> fpost op k s s' ns o.
Proof.
  intros Hf Hk Hw Hq Ho. destruct k as [op'| |m|m i|m i|i|]; cbn [okk] in Hk.
  - subst op'. cbn [xfrag] in Hf. destruct op.
    + destruct (clos s) eqn:Ec; inversion Hf; subst; constructor; cbn; auto; try congruence; try lia; try tauto; intros.
      * rt.
      * rt.
      * rewrite occ_app, b2n_S. cbn. lia.
      * destruct (H H0). congruence.
      * apply in_app_or in H as [H|[H|[]]]; auto.
    + inversion Hf; subst; constructor; cbn; auto; try congruence; try lia; try tauto; intros.
      * rt.
    + inversion Hf; subst; constructor; cbn; auto; try congruence; try lia; try tauto. split; auto. split; [reflexivity|discriminate].
    + destruct (wstart s) eqn:Ew; inversion Hf; subst; constructor; cbn; auto; try congruence; try lia; try tauto.
      * rt.
      * rewrite Ew. cbn. lia.
    + destruct (take_nth e (pend s)) as [[i l]|] eqn:Et; inversion Hf; subst; constructor; cbn; auto; try congruence; try lia; try tauto; intros.
      * rewrite (take_nth_occ _ _ Et). unfold act_eqb. destruct (i0 =? i); lia.
      * rewrite H in Et. destruct e; discriminate.
      * apply take_nth_None in Et. auto.
    + inversion Hf; subst; constructor; cbn; auto; try congruence; try lia; try tauto.
  - subst op. cbn [xfrag] in Hf. destruct (clos s) eqn:Ec; inversion Hf; subst; constructor; cbn; auto; try congruence; try lia; try tauto.
    + split; auto. split; [reflexivity|discriminate].
  - destruct Hk as [Hm Hcl]. cbn [xfrag] in Hf. destruct (q s) as [|i q'] eqn:Eq.
    + destruct m; cbn in Hm; subst op.
      * destruct (clos s) eqn:Ec; inversion Hf; subst; constructor; cbn; rewrite ?Eq; auto; try congruence; try lia; try tauto.
      * inversion Hf; subst; constructor; cbn; rewrite ?Eq; auto; try congruence; try lia; try tauto.
        -- rt.
        -- rewrite Hw by reflexivity. cbn. lia.
      * inversion Hf; subst; constructor; cbn; rewrite ?Eq; auto; try congruence; try lia; try tauto.
        rt.
    + inversion Hf; subst; constructor; cbn; rewrite ?Eq; auto; try congruence; try lia; try tauto.
      * split; auto. split; auto. split; auto. split; [apply Hq; left; auto|]. intros Hin. specialize (Ho i). cbn in Ho. rewrite Nat.eqb_refl in Ho. apply occ_In in Hin. lia.
      * intros j. simpl. lia.
      * intros H H0. destruct (H H0). discriminate.
      * intros j Hj. left. right. auto.
      * intros [? ?]. discriminate.
  - destruct Hk as (Hm & Hcl & Hi & Hni). cbn [xfrag] in Hf. inversion Hf; subst; constructor; cbn; auto; try congruence; try lia; try tauto.
    + intros j. rewrite occ_app. cbn. lia.
  - destruct Hk as (Hm & Hcl & Hi & Hni). cbn [xfrag] in Hf. destruct (finished i (log s)) eqn:Ef; [destruct m; cbn in Hm; subst op|]; inversion Hf; subst; constructor; cbn; auto; try congruence; try lia; try tauto.
    + rt.
    + split; [auto|]. split; auto. eauto.
  - subst op. cbn [xfrag] in Hf. inversion Hf; subst; constructor; cbn; auto; try congruence; try lia; try tauto.
  - destruct Hk as [-> Hc]. cbn [xfrag] in Hf. destruct (wdone s) eqn:Ed; inversion Hf; subst; constructor; cbn; auto; try congruence; try lia; try tauto.
    rt.
Qed.

Lemma upd_thr (l : list tst) t y u x : t < length l -> nth_error (upd l t y) u = Some x -> u = t /\ x = y \/ u <> t /\ nth_error l u = Some x.
Proof.
  intros Hlt H. destruct (Nat.eq_dec u t) as [->|Hn]; [left|right; split; auto].
  - rewrite nth_error_upd_same in H by auto. split; congruence.
  - now rewrite nth_error_upd_other in H by auto.
Qed.
Lemma woken_back (l l' : list tst) u x : woken_rel l l' -> nth_error l' u = Some x -> exists x0, nth_error l u = Some x0 /\ (x = x0 \/ is_asleep x0 = true /\ x = wake x0).
Proof.
  intros [Hlen Hw] Hx. destruct (nth_error l u) as [x0|] eqn:E.
  - exists x0. split; auto. destruct (Hw _ _ E) as [E'|[Ha E']]; rewrite E' in Hx; injection Hx as <-; auto.
  - apply nth_error_None in E. assert (u < length l') by (apply nth_error_Some; congruence). lia.
Qed.
Lemma okk_mono op0 k0 s s' ns o op k : fpost op0 k0 s s' ns o -> okk s op k -> okk s' op k.
Proof.
  intros [_ _ _ _ _ _ F1 F2 F3 _ _ _ _] H.
  assert (A : forall i, i < nsub s -> ~ In i (q s) -> i < nsub s' /\ ~ In i (q s')) by (intros i H1 H2; split; [lia|]; intros H3; apply F1 in H3 as [H3|H3]; [auto|lia]).
  destruct k as [op'| |m|m i|m i|i|]; cbn in *; auto; try tauto.
  - destruct H as (H1 & H2 & H3 & H4). destruct (A i H3 H4). tauto.
  - destruct H as (H1 & H2 & H3 & H4). destruct (A i H3 H4). tauto.
Qed.
Lemma accepted_done t op r h : (op = OSubmit /\ r = ROk) /\ accepted (EDone t op r :: h) = S (accepted h) \/ ~ (op = OSubmit /\ r = ROk) /\ accepted (EDone t op r :: h) = accepted h.
Proof. destruct op; cbn; try (right; split; [intros [? ?]; discriminate|auto]; fail). destruct r; auto; right; split; auto; intros [? ?]; discriminate. Qed.

Section Reach.
  Variable allowed : xop -> bool.
  Notation P := (sxprog allowed).

  Lemma Inv_fp c t e l op k s' ns o : Inv c -> nth_error (thr c) t = Some (Ready xcv l op k) -> xfrag t e k (sh c) = (s', ns, o) -> fpost op k (sh c) s' ns o.
  Proof.
    intros [I1 I2 I3 I4 I5 I6 I7] Ht Hfr. assert (Hk : okk (sh c) op k) by (eapply (Forall_nth_error I1 Ht)).
    eapply frag_ok; eauto.
    - intros Hw. pose proof (sumw_ge (wk wwrk) Ht) as G. cbn [wk] in G. destruct (wdone (sh c)); auto. destruct (wstart (sh c)); cbn in I5; lia.
    - intros i Hi. apply occ_In in Hi. specialize (I2 i). destruct (Nat.ltb_spec i (nsub (sh c))); auto. cbn in I2. lia.
    - intros i. specialize (I2 i). destruct (i <? nsub (sh c)); cbn in I2; lia.
  Qed.
  Lemma stat_other c t ps s' ns o op k l thr' : Inv c -> fpost op k (sh c) s' ns o -> deliver_all P ns ps (thr c) = Some thr' ->
    nth_error (thr c) t = Some (Ready xcv l op k) -> forall u z, u <> t -> nth_error thr' u = Some z -> stat s' z.
  Proof.
    intros HI FP Hd Ht u z Hn Hz. pose proof (deliver_all_woken Hd) as Hw. destruct (woken_back _ Hw Hz) as (z0 & Hz0 & Hzz). pose proof (Forall_nth_error (v_st HI) Hz0) as Jz.
    destruct z0 as [u0|u0 op0 k0|u0 op0 cv0 k0|u0 ns0|]; destruct Hzz as [->|[Ha0 ->]]; try discriminate; cbn in Jz |- *; auto.
    - eapply okk_mono; eauto.
    - destruct Jz as [J1 J2]. split; [eapply okk_mono; eauto|].
      assert (K : In (NAll cv0) ns -> False).
      { intros Hi. pose proof (deliver_all_NAll P cv0 ns ps _ Hd Hi) as Hx. rewrite Forall_forall in Hx. specialize (Hx _ (nth_error_In _ _ Hz)). unfold not_on in Hx. destruct cv0; cbn in Hx; discriminate. }
      destruct FP as [_ _ _ _ _ _ _ _ _ F1 F2 F3 F4]. destruct cv0; cbn in J2 |- *.
      + destruct J2 as [-> J2]. split; auto. destruct (q s') as [|? ?] eqn:E; [|exfalso; apply K, F1; auto; intros [? _]; discriminate]. split; auto.
        destruct (clos s') eqn:E2; auto. exfalso. apply K, F1; auto. intros [_ ?]; discriminate.
      + destruct J2 as (m & i & -> & J2). exists m, i. split; auto. destruct (finished i (log s')) eqn:E; auto. exfalso. eauto.
      + destruct J2 as [-> J2]. split; auto. destruct (wdone s') eqn:E; auto. exfalso. auto.
      + destruct J2 as [-> J2]. split; auto. destruct (pend s') as [|? ?] eqn:E; auto. exfalso. apply K, F4; auto. discriminate.
    - destruct Jz as [J1 J2]. eapply okk_mono; eauto.
  Qed.
  Lemma wk_after w t l op o h : match o with OFin _ _ _ => False | _ => True end -> wk w (fst (after P t l op o h)) = wo w o.
  Proof. destruct o; cbn; auto; contradiction. Qed.

  Lemma Inv_step c c' : Inv c -> stepcase P c c' -> Inv c'.
  Proof.
    intros HI Hs. pose proof HI as [I1 I2 I3 I4 I5 I6 I7]. destruct Hs as
     [t l op Ht Hp ->|t ps e l op k s' ns o thr' Ht Hfr Hd ->|t p l n ns thr' Ht Hd ->
     |t l op cv k Ht ->|t l op cv k k' Ht Hk ->|t l op cv k k' Ht Hk ->|t l op k k' Ht Hk ->]; try discriminate Hk.
    - constructor; cbn [sh thr hist]; auto.
      + apply Forall_upd; auto. reflexivity.
      + intros i. pose proof (sumw_upd (wk (wsub i)) (Ready xcv l op (KStart op)) Ht) as H. specialize (I2 i). cbn in H |- *. lia.
      + intros i. pose proof (sumw_upd (wk (wrun i)) (Ready xcv l op (KStart op)) Ht) as H. specialize (I3 i). cbn in H |- *. lia.
      + pose proof (sumw_upd (wk wwrk) (Ready xcv l op (KStart op)) Ht) as H. cbn in H |- *. lia.
      + intros u [H|H]; [discriminate|eauto].
    - cbn [frag sxprog] in Hfr. assert (FP : fpost op k (sh c) s' ns o) by (eapply Inv_fp; eauto).
      pose proof (deliver_all_woken Hd) as Hw. assert (Ht' : nth_error thr' t = Some (Ready xcv l op k)) by (eapply woken_not_asleep; eauto).
      assert (SO : forall u z, u <> t -> nth_error thr' u = Some z -> stat s' z) by (eapply stat_other; eauto). destruct FP as [F1 F2 F3 F4 F5 F6 F7 F8 F9 F10 F11 F12 F13].
      assert (Nf : match o with OFin _ _ _ => False | _ => True end) by (destruct o; auto).
      assert (S1 : forall w, sumw (wk w) (upd thr' t (fst (after P t l op o (hist c)))) + w k = sumw (wk w) (thr c) + wo w o).
      { intros w. pose proof (sumw_upd (wk w) (fst (after P t l op o (hist c))) Ht') as H. rewrite wk_after in H by auto. cbn [wk] in H.
        assert (E : sumw (wk w) thr' = sumw (wk w) (thr c)) by (apply woken_sumw_eq; auto; intros; apply wk_wake). lia. }
      constructor; cbn [sh thr hist]; auto.
      + apply Forall_forall. intros z Hz. apply In_nth_error in Hz as [u Hz].
        apply upd_thr in Hz; [|apply nth_error_Some; congruence]. destruct Hz as [[-> ->]|[Hn Hz]]; [|eapply SO; eauto].
        destruct o; try contradiction; cbn; auto; tauto.
      + intros i. specialize (S1 (wsub i)). specialize (F2 i). specialize (I2 i). lia.
      + intros i. specialize (S1 (wrun i)). specialize (F3 i). specialize (I3 i). lia.
      + destruct o as [r|r ns0|cv0 k0|k0|]; try contradiction; [|cbn; destruct F1 as (_ & _ & ->); auto|cbn; destruct F1 as (_ & ->); auto].
        cbn [after snd]. destruct (accepted_done t op r (hist c)) as [[A B]|[A B]]; rewrite B; destruct F1 as (G1 & G2 & _); [rewrite G1 by auto|rewrite G2 by auto]; lia.
      + specialize (S1 wwrk). lia.
      + intros u Hu. destruct o as [r|r ns0|cv0 k0|k0|]; try contradiction; cbn in Hu; try (apply F6; eauto; fail).
        destruct Hu as [Hu|Hu]; [|apply F6; eauto]. injection Hu as -> -> ->. apply F1. auto.
    - destruct (Forall_nth_error I1 Ht).
    - constructor; cbn [sh thr hist]; auto.
      + apply Forall_upd; auto. destruct (Forall_nth_error I1 Ht); auto.
      + intros i. pose proof (sumw_upd (wk (wsub i)) (Ready xcv l op k) Ht) as H. specialize (I2 i). cbn [wk] in H |- *. lia.
      + intros i. pose proof (sumw_upd (wk (wrun i)) (Ready xcv l op k) Ht) as H. specialize (I3 i). cbn [wk] in H |- *. lia.
      + pose proof (sumw_upd (wk wwrk) (Ready xcv l op k) Ht) as H. cbn [wk] in H |- *. lia.
  Qed.
  Lemma Inv_reachable n c : reachable P n sx0 tt c -> Inv c.
  Proof.
    apply (reachable_inv P Inv); [|intros c0 c1; apply Inv_step].
    constructor; cbn; try discriminate; try contradiction; auto; try (intros; rewrite sumw_repeat; cbn; lia).
    - apply Forall_forall. intros x Hx. apply repeat_spec in Hx. subst. exact I.
    - intros i. rewrite sumw_repeat. destruct (Nat.ltb_spec i 0); cbn; lia.
  Qed.

  (** ** one at a time and in order, when users do not call try_executing_one *)
  Hypothesis no_try : allowed OTry = false.
  Inductive phase := P0 | P1 | P2 | P3 | P4.
  Definition tph (ph : phase) (m : nat) (k : xk) : Prop :=
    match k with
    | KSub _ i => i = m /\ ph = P1
    | KWait _ i => i = m /\ (ph = P2 \/ ph = P3 \/ ph = P4)
    | KRun i => i = m /\ ph = P3
    | _ => True end.
  Definition sph (ph : phase) (m : nat) (s : sx) : Prop :=
    match ph with
    | P0 => q s = seq m (nsub s - m) /\ m <= nsub s /\ pend s = [] /\ log s = serial m
    | P1 => q s = seq (S m) (nsub s - S m) /\ m < nsub s /\ pend s = [] /\ log s = serial m
    | P2 => q s = seq (S m) (nsub s - S m) /\ m < nsub s /\ pend s = [m] /\ log s = serial m
    | P3 => q s = seq (S m) (nsub s - S m) /\ m < nsub s /\ pend s = [] /\ log s = Beg m :: serial m
    | P4 => q s = seq (S m) (nsub s - S m) /\ m < nsub s /\ pend s = [] /\ log s = serial (S m)
    end.
  Definition thk (T : xk -> Prop) (x : tst) : Prop := match x with Ready _ _ _ k | Asleep _ _ _ k => T k | _ => True end.
  Definition notry (k : xk) : Prop := match k with KStart OTry | KPull MTry | KSub MTry _ | KWait MTry _ => False | _ => True end.
  Record Ord (c : sxconf) : Prop := {
    o_inv : Inv c;
    o_nt : Forall (thk notry) (thr c);
    o_ph : exists ph m, sph ph m (sh c) /\ Forall (thk (tph ph m)) (thr c) /\ sumw (wk wfly) (thr c) = (match ph with P0 => 0 | _ => 1 end) /\ sumw (wk wany) (thr c) = (match ph with P3 => 1 | _ => 0 end) }.

  Lemma thk_wake T (x : tst) : thk T x -> thk T (wake x).
  Proof. destruct x; auto. Qed.
  Lemma finished_serial i m : m <= i -> finished i (serial m) = false.
  Proof. intros H. induction m as [|m IH]; auto. cbn. destruct (Nat.eqb_spec m i); [lia|]. cbn. apply IH. lia. Qed.
  Lemma sumw_le (w w' : tst -> nat) l : (forall x, In x l -> w x <= w' x) -> sumw w l <= sumw w' l.
  Proof. induction l as [|x l IH]; cbn; auto. intros H. assert (A := H x (or_introl eq_refl)). assert (B := IH (fun y Hy => H y (or_intror Hy))). lia. Qed.
  Lemma sumw_one (w : tst -> nat) l t x : nth_error l t = Some x -> sumw w l <= w x -> forall u y, u <> t -> nth_error l u = Some y -> w y = 0.
  Proof.
    revert t. induction l as [|z l IH]; intros [|t] Ht Hs [|u] y Hn Hu; cbn in *; try discriminate; try congruence.
    - injection Ht as <-. pose proof (sumw_ge w Hu). lia.
    - injection Hu as <-. pose proof (sumw_ge w Ht). lia.
    - apply (IH t Ht) with (u := u); auto; lia.
  Qed.

  Definition nfly (ph : phase) : nat := match ph with P0 => 0 | _ => 1 end.
  Definition nany (ph : phase) : nat := match ph with P3 => 1 | _ => 0 end.
  Lemma frag_ord t e k s s' ns o ph m : xfrag t e k s = (s', ns, o) -> sph ph m s -> tph ph m k -> notry k -> (wwrk k = 1 -> wfly k = 0 -> ph = P0) ->
    exists ph' m', sph ph' m' s' /\ match o with OYield _ _ k' | OSleep _ _ k' => tph ph' m' k' /\ notry k' | _ => True end /\
      (forall k0, tph ph m k0 -> (wfly k = 1 -> wfly k0 = 0) -> (wany k = 1 -> wany k0 = 0) -> tph ph' m' k0) /\
      wo wfly o + nfly ph = wfly k + nfly ph' /\ wo wany o + nany ph = wany k + nany ph'.
  Proof.
    intros Hf Hs Ht Hn H0.
    destruct k as [op'| |md|md i|md i|i|].
    - destruct op'; cbn [xfrag] in Hf; try contradiction.
      + destruct (clos s); inversion Hf; subst; exists ph, m; split; auto.
        destruct ph; cbn [sph q nsub pend log] in Hs |- *; destruct Hs as (E1 & E2 & E3 & E4); (split; [|split; [lia|auto]]); rewrite E1.
        * replace (S (nsub s) - m) with (S (nsub s - m)) by lia. rewrite seq_S. do 2 f_equal. lia.
        * replace (S (nsub s) - S m) with (S (nsub s - S m)) by lia. rewrite seq_S. do 2 f_equal. lia.
        * replace (S (nsub s) - S m) with (S (nsub s - S m)) by lia. rewrite seq_S. do 2 f_equal. lia.
        * replace (S (nsub s) - S m) with (S (nsub s - S m)) by lia. rewrite seq_S. do 2 f_equal. lia.
        * replace (S (nsub s) - S m) with (S (nsub s - S m)) by lia. rewrite seq_S. do 2 f_equal. lia.
      + inversion Hf; subst; exists ph, m; split; auto; destruct ph; cbn in *; auto.
      + destruct (wstart s); inversion Hf; subst; exists ph, m; split; auto; destruct ph; cbn in *; auto.
      + destruct (take_nth e (pend s)) as [[i l]|] eqn:Et; inversion Hf; subst; [|exists ph, m; cbn; auto].
        destruct ph; cbn in Hs; destruct Hs as (E1 & E2 & E3 & E4); rewrite E3 in Et; try (destruct e; discriminate).
        assert (i = m /\ l = []) by (destruct e; cbn in Et; [|destruct e]; injection Et as <- <-; auto). destruct H as [-> ->].
        exists P3, m. cbn. rewrite E4. split; auto. split; auto. split; [|split; auto].
        intros [ | | |? ?|? ?|?| ]; cbn; auto; [intros [_ ?]; discriminate| |intros [_ ?]; discriminate]. intros [-> _]. auto.
      + inversion Hf; subst; exists ph, m; split; auto; destruct ph; cbn in *; auto.
    - cbn [xfrag] in Hf. destruct (clos s); inversion Hf; subst; exists ph, m; cbn; auto.
    - cbn [xfrag] in Hf. destruct (q s) as [|i q'] eqn:Eq.
      + destruct md; [destruct (clos s)| |contradiction]; inversion Hf; subst; exists ph, m; split; cbn; auto; destruct ph; cbn in *; auto; rewrite Eq in *; auto.
      + inversion Hf; subst. assert (ph = P0) as -> by (destruct md; cbn in *; auto; contradiction). cbn in Hs. destruct Hs as (E1 & E2 & E3 & E4). rewrite Eq in E1.
        destruct (nsub s - m) as [|d] eqn:Ed; [discriminate|]. injection E1 as -> ->. exists P1, m. cbn. rewrite E3, E4. split; [|split; [|split; auto]].
        * split; [f_equal; lia|]. split; [lia|auto].
        * split; auto.
        * intros [ | | |? ?|? ?|?| ]; cbn; auto; intros [_ ?]; try discriminate. destruct H as [H|[H|H]]; discriminate.
    - cbn [xfrag] in Hf. inversion Hf; subst. destruct Ht as [-> ->]. cbn in Hs. destruct Hs as (E1 & E2 & E3 & E4). exists P2, m. cbn. rewrite E3, E4. split; [auto|]. split; [split; auto|]. split; [|split; auto].
      intros [ | | |? ?|? ?|?| ] H1 H2 H3; cbn in *; auto; try (specialize (H2 eq_refl); discriminate). destruct H1; discriminate.
    - cbn [xfrag] in Hf. destruct (finished i (log s)) eqn:Ef.
      + destruct Ht as [-> Ht]. assert (ph = P4) as ->.
        { destruct Ht as [ -> |[ -> | -> ]]; auto; cbn in Hs; destruct Hs as (E1 & E2 & E3 & E4); rewrite E4 in Ef; cbn in Ef; rewrite finished_serial in Ef; auto; discriminate. }
        cbn in Hs. destruct Hs as (E1 & E2 & E3 & E4). exists P0, (S m). destruct md; [| |contradiction]; inversion Hf; subst; cbn; rewrite E4, E3; (split; [auto|]); (split; [auto|]); (split; [|auto]);
        (intros [ | | |? ?|? ?|?| ] H1 H2 H3; cbn in *; auto; try (specialize (H2 eq_refl); discriminate); destruct H1; discriminate).
      + inversion Hf; subst. exists ph, m. cbn. auto.
    - cbn [xfrag] in Hf. inversion Hf; subst. destruct Ht as [-> ->]. cbn in Hs. destruct Hs as (E1 & E2 & E3 & E4). exists P4, m. cbn. rewrite E3, E4. split; [auto|]. split; [auto|]. split; [|auto].
      intros [ | | |? ?|? ?|?| ] H1 H2 H3; cbn in *; auto; try (specialize (H3 eq_refl); discriminate); destruct H1; try discriminate; auto.
    - cbn [xfrag] in Hf. destruct (wdone s); inversion Hf; subst; exists ph, m; cbn; auto.
  Qed.

  Lemma Ord_step c c' : Ord c -> stepcase P c c' -> Ord c'.
  Proof.
    intros [HI HN (ph & m & H1 & H2 & H3 & H4)] Hs. pose proof (Inv_step HI Hs) as HI'. enough (Q : Forall (thk notry) (thr c') /\ exists ph m, sph ph m (sh c') /\ Forall (thk (tph ph m)) (thr c') /\ sumw (wk wfly) (thr c') = (match ph with P0 => 0 | _ => 1 end) /\ sumw (wk wany) (thr c') = (match ph with P3 => 1 | _ => 0 end)) by (destruct Q; constructor; auto). clear HI'; destruct Hs as
     [t l op Ht Hp ->|t ps e l op k s' ns o thr' Ht Hfr Hd ->|t p l n ns thr' Ht Hd ->
     |t l op cv k Ht ->|t l op cv k k' Ht Hk ->|t l op cv k k' Ht Hk ->|t l op k k' Ht Hk ->]; try discriminate Hk; cbn [sh thr hist].
    - split; [apply Forall_upd; auto; cbn; destruct op; auto; cbn in Hp; congruence|]. exists ph, m. split; auto. split; [apply Forall_upd; auto; exact I|].
      pose proof (sumw_upd (wk wfly) (Ready xcv l op (KStart op)) Ht) as A. pose proof (sumw_upd (wk wany) (Ready xcv l op (KStart op)) Ht) as B. cbn in A, B |- *. split; lia.
    - cbn [frag sxprog] in Hfr. assert (FP : fpost op k (sh c) s' ns o) by (eapply Inv_fp; eauto).
      pose proof (deliver_all_woken Hd) as Hw. assert (Ht' : nth_error thr' t = Some (Ready xcv l op k)) by (eapply woken_not_asleep; eauto).
      assert (Nf : match o with OFin _ _ _ => False | _ => True end) by (destruct FP as [F _ _ _ _ _ _ _ _ _ _ _ _]; destruct o; auto).
      assert (S1 : forall w, sumw (wk w) (upd thr' t (fst (after P t l op o (hist c)))) + w k = sumw (wk w) (thr c) + wo w o).
      { intros w. pose proof (sumw_upd (wk w) (fst (after P t l op o (hist c))) Ht') as H. rewrite wk_after in H by auto. cbn [wk] in H.
        assert (E : sumw (wk w) thr' = sumw (wk w) (thr c)) by (apply woken_sumw_eq; auto; intros; apply wk_wake). lia. }
      assert (Hnt : notry k) by (exact (Forall_nth_error HN Ht)). assert (Htp : tph ph m k) by (exact (Forall_nth_error H2 Ht)).
      assert (W1 : sumw (wk wwrk) (thr c) <= 1) by (pose proof (v_wrk HI) as W; destruct (wstart (sh c)); cbn in W; lia).
      assert (W2 : sumw (wk wfly) (thr c) <= sumw (wk wwrk) (thr c)).
      { apply sumw_le. intros x Hx. rewrite Forall_forall in HN. specialize (HN x Hx). destruct x as [|? ? k0|? ? ? k0| |]; cbn in HN |- *; auto; destruct k0 as [ | |[]|[] ?|[] ?|?| ]; cbn in *; auto; contradiction. }
      assert (H0 : wwrk k = 1 -> wfly k = 0 -> ph = P0).
      { intros Hk1 Hk2. destruct (sumw (wk wfly) (thr c)) as [|z] eqn:E; [destruct ph; auto; discriminate|]. exfalso.
        assert (0 < sumw (wk wfly) (thr c)) as Hpos by lia. apply sumw_pos in Hpos as (u & y & Hu & Hy).
        assert (u <> t) by (intros ->; rewrite Ht in Hu; injection Hu as <-; cbn in Hy; lia).
        assert (Z : wk wwrk y = 0) by (eapply sumw_one with (1 := Ht) (4 := Hu); auto; cbn [wk]; lia).
        pose proof (Forall_nth_error HN Hu) as Ny. destruct y as [|? ? k0|? ? ? k0| |]; cbn in Ny, Hy, Z; try lia; destruct k0 as [ | |[]|[] ?|[] ?|?| ]; cbn in *; try lia; contradiction. }
      destruct (frag_ord _ _ _ _ _ Hfr H1 Htp Hnt H0) as (ph' & m' & G1 & G2 & G3 & G4 & G5).
      assert (O : forall u z, u <> t -> nth_error thr' u = Some z -> thk notry z /\ thk (tph ph' m') z).
      { intros u z Hn Hz. destruct (woken_back _ Hw Hz) as (z0 & Hz0 & Hzz).
        assert (Q : thk notry z0 /\ thk (tph ph' m') z0).
        { split; [exact (Forall_nth_error HN Hz0)|]. pose proof (Forall_nth_error H2 Hz0) as T0.
          assert (Y1 : wfly k = 1 -> wk wfly z0 = 0) by (intros Y; eapply sumw_one with (1 := Ht) (4 := Hz0); auto; cbn [wk]; destruct ph; cbn in H3; lia).
          assert (Y2 : wany k = 1 -> wk wany z0 = 0) by (intros Y; eapply sumw_one with (1 := Ht) (4 := Hz0); auto; cbn [wk]; destruct ph; cbn in H4; lia).
          destruct z0; cbn in T0, Y1, Y2 |- *; auto. }
        destruct Hzz as [->|[_ ->]]; auto. destruct Q. split; apply thk_wake; auto. }
      split; [|exists ph', m'; split; auto; split; [|]].
      + apply Forall_forall. intros z Hz. apply In_nth_error in Hz as [u Hz]. apply upd_thr in Hz; [|apply nth_error_Some; congruence]. destruct Hz as [[-> ->]|[Hn Hz]]; [|eapply O; eauto].
        destruct o; try contradiction; cbn; auto; tauto.
      + apply Forall_forall. intros z Hz. apply In_nth_error in Hz as [u Hz]. apply upd_thr in Hz; [|apply nth_error_Some; congruence]. destruct Hz as [[-> ->]|[Hn Hz]]; [|eapply O; eauto].
        destruct o; try contradiction; cbn; auto; tauto.
      + fold (nfly ph) in H3. fold (nany ph) in H4. fold (nfly ph'). fold (nany ph'). pose proof (S1 wfly). pose proof (S1 wany). split; lia.
    - destruct (Forall_nth_error (v_st HI) Ht).
    - split; [apply Forall_upd; auto; exact (Forall_nth_error HN Ht)|]. exists ph, m. split; auto. split; [apply Forall_upd; auto; exact (Forall_nth_error H2 Ht)|].
      pose proof (sumw_upd (wk wfly) (Ready xcv l op k) Ht) as A. pose proof (sumw_upd (wk wany) (Ready xcv l op k) Ht) as B. cbn [wk] in A, B |- *. split; lia.
  Qed.
  Lemma Ord_reachable n c : reachable P n sx0 tt c -> Ord c.
  Proof.
    intros Hr. assert (H : Ord c); [|exact H]. revert Hr. apply (reachable_inv P Ord); [|intros c0 c1; apply Ord_step]. constructor.
    - apply (@Inv_reachable n). exists []. reflexivity.
    - apply Forall_forall. intros x Hx. apply repeat_spec in Hx. subst. exact I.
    - exists P0, 0. split; [cbn; auto|]. split; [apply Forall_forall; intros x Hx; apply repeat_spec in Hx; subst; exact I|]. cbn. rewrite !sumw_repeat. cbn. lia.
  Qed.
End Reach.

(** ** at rest *)
Section Rest.
  Variable allowed : xop -> bool.
  Notation P := (sxprog allowed).
  Lemma rest n c : reachable P n sx0 tt c -> quiescent c -> wstart (sh c) = true -> (exists t l cv k, nth_error (thr c) t = Some (Asleep l OExec cv k)) ->
    (forall i, i < accepted (hist c) -> times (Beg i) (log (sh c)) = 1 /\ times (End i) (log (sh c)) = 1) /\
    forall t l op cv k, nth_error (thr c) t = Some (Asleep l op cv k) -> op = OExec \/ op = OWorker /\ clos (sh c) = false.
  Proof.
    intros Hr Hq Hws (t0 & l0 & cv0 & k0 & H0). pose proof (Inv_reachable Hr) as HI. pose proof HI as [I1 I2 I3 I4 I5 I6 I7].
    assert (Hp : pend (sh c) = []).
    { destruct (Forall_nth_error I1 H0) as [J1 J2]. destruct cv0; cbn in J2.
      - destruct J2 as [-> _]. discriminate.
      - destruct J2 as (m & i & -> & _). destruct J1 as (J1 & _). destruct m; discriminate.
      - destruct J2 as [-> _]. destruct J1; discriminate.
      - tauto. }
    assert (AS : forall x, In x (thr c) -> (exists l, x = Idle xk xop xcv l) \/ exists l op cv k, x = Asleep l op cv k /\ okk (sh c) op k /\ blocked (sh c) cv k).
    { intros x Hx. apply In_nth_error in Hx as [t Ht]. destruct (quiescent_settled Hq Ht) as [(l & ->)|(l & op & cv & k & ->)]; [left; eauto|right].
      exists l, op, cv, k. split; auto. exact (Forall_nth_error I1 Ht). }
    assert (Z1 : forall i, sumw (wk (wsub i)) (thr c) = 0).
    { intros i. apply sumw_zero. intros x Hx. destruct (AS x Hx) as [(l & ->)|(l & op & cv & k & -> & J1 & J2)]; auto. destruct cv; cbn in J2; [destruct J2 as [-> _]|destruct J2 as (m & j & -> & _)|destruct J2 as [-> _]|destruct J2 as [-> _]]; reflexivity. }
    assert (Z2 : forall i, sumw (wk (wrun i)) (thr c) = 0).
    { intros i. apply sumw_zero. intros x Hx. destruct (AS x Hx) as [(l & ->)|(l & op & cv & k & -> & J1 & J2)]; auto. destruct cv; cbn in J2; [destruct J2 as [-> _]|destruct J2 as (m & j & -> & _)|destruct J2 as [-> _]|destruct J2 as [-> _]]; reflexivity. }
    assert (D : forall i, i < nsub (sh c) -> ~ In i (q (sh c)) -> times (Beg i) (log (sh c)) = 1 /\ times (End i) (log (sh c)) = 1).
    { intros i Hi Hni. specialize (I2 i). specialize (I3 i). rewrite Z1, Hp in I2. rewrite Z2 in I3. rewrite occ_In in Hni. cbn in I2. apply Nat.ltb_lt in Hi. rewrite Hi in I2. cbn in I2. lia. }
    assert (NF : forall t l op k, nth_error (thr c) t <> Some (Asleep l op CF k)).
    { intros t l op k Ht. destruct (Forall_nth_error I1 Ht) as [J1 (m & i & -> & Hf)]. destruct J1 as (_ & _ & J3 & J4). destruct (D i J3 J4) as [_ E].
      assert (finished i (log (sh c)) = true) by (apply finished_times; lia). congruence. }
    assert (WQ : q (sh c) = [] /\ (wdone (sh c) = true \/ clos (sh c) = false)).
    { destruct (wdone (sh c)) eqn:Ed; [destruct (I6 eq_refl); auto|]. rewrite Hws in I5. cbn in I5. assert (Hpos : 0 < sumw (wk wwrk) (thr c)) by lia. apply sumw_pos in Hpos as (t & x & Ht & Hx).
      destruct (AS x (nth_error_In _ _ Ht)) as [(l & ->)|(l & op & cv & k & -> & J1 & J2)]; [cbn in Hx; lia|].
      destruct cv; cbn in J2.
      - tauto.
      - exfalso. eapply NF; eauto.
      - destruct J2 as [-> _]. cbn in Hx. lia.
      - destruct J2 as [-> _]. cbn in Hx. lia. }
    destruct WQ as [WQ1 WQ2]. split.
    - intros i Hi. apply D; [now rewrite I4|]. rewrite WQ1. auto.
    - intros t l op cv k Ht. destruct (Forall_nth_error I1 Ht) as [J1 J2]. destruct cv; cbn in J2.
      + destruct J2 as (-> & _ & E). right. auto.
      + exfalso. eapply NF; eauto.
      + destruct J2 as [-> J2]. destruct J1 as [_ J1]. destruct WQ2; congruence.
      + destruct J2 as [-> _]. cbn in J1. auto.
  Qed.
End Rest.

Lemma destroyed n allowed c t : allowed OTry = false -> reachable (sxprog allowed) n sx0 tt c -> In (EDone t ODestroy ROk) (hist c) -> log (sh c) = serial (accepted (hist c)).
Proof.
  intros Ha Hr Hin. destruct (Ord_reachable Ha Hr) as [HI HN (ph & m & H1 & H2 & H3 & H4)]. pose proof (v_des HI _ Hin) as Hd. destruct (v_wd HI Hd) as [Hc Hq].
  assert (W2 : sumw (wk wfly) (thr c) <= sumw (wk wwrk) (thr c)).
  { apply sumw_le. intros x Hx. rewrite Forall_forall in HN. specialize (HN x Hx). destruct x as [|? ? k0|? ? ? k0| |]; cbn in HN |- *; auto; destruct k0 as [ | |[]|[] ?|[] ?|?| ]; cbn in *; auto; contradiction. }
  pose proof (v_wrk HI) as W. rewrite Hd in W. destruct ph; try (destruct (wstart (sh c)); cbn in W; lia).
  cbn in H1. destruct H1 as (E1 & E2 & _ & E4). rewrite Hq in E1. rewrite E4. f_equal. rewrite <- (v_acc HI). destruct (nsub (sh c) - m) eqn:E; [lia|discriminate].
Qed.

(** ** no submission is accepted after close *)
Lemma clos_frag allowed t e l op k s s' ns o h : xfrag t e k s = (s', ns, o) -> okk s op k ->
  (forall u op', In (EDone u op' ROk) h -> op' = OClose \/ op' = ODestroy -> clos s = true) ->
  forall u op', In (EDone u op' ROk) (snd (after (sxprog allowed) t l op o h)) -> op' = OClose \/ op' = ODestroy -> clos s' = true.
Proof.
  intros Hf Hk Hh u op' Hin Hop.
  assert (M : clos s = true -> clos s' = true).
  { intros Hc. destruct k as [op0| |m|m i|m i|i|]; cbn [xfrag] in Hf; rewrite ?Hc in Hf; try (destruct op0; rewrite ?Hc in Hf); try (destruct m); try (destruct (q s)); try (destruct (finished i (log s)));
      try (destruct (take_nth e (pend s)) as [[? ?]|]); try (destruct (wstart s)); try (destruct (wdone s)); inversion Hf; subst; auto. }
  assert (N : forall r, o = ORet xk xcv r -> op = OClose \/ op = ODestroy -> clos s' = true).
  { intros r -> Ho. destruct k as [op0| |m|m i|m i|i|]; cbn [okk] in Hk; cbn [xfrag] in Hf.
    - subst op0. destruct Ho; subst op; inversion Hf; reflexivity.
    - subst op. destruct Ho; discriminate.
    - destruct Hk as [Hk _]. destruct m; cbn in Hk; subst op; destruct Ho; discriminate.
    - destruct Hk as [Hk _]. destruct m; cbn in Hk; subst op; destruct Ho; discriminate.
    - destruct Hk as [Hk _]. destruct m; cbn in Hk; subst op; destruct Ho; discriminate.
    - subst op. destruct Ho; discriminate.
    - apply M. tauto. }
  destruct o as [r|r ns0|cv0 k0|k0|]; cbn in Hin; try (apply M; eauto; fail).
  - destruct Hin as [Hin|Hin]; [|apply M; eauto]. injection Hin as _ <- _. eauto.
  - exfalso. revert Hf. clear. destruct k as [op0| |m|m i|m i|i|]; cbn [xfrag]; try (destruct op0); try (destruct m); try (destruct (q s)); try (destruct (finished i (log s)));
      try (destruct (take_nth e (pend s)) as [[? ?]|]); try (destruct (wstart s)); try (destruct (wdone s)); try (destruct (clos s)); intros Hf; inversion Hf.
Qed.
Lemma closed_seen allowed n c : reachable (sxprog allowed) n sx0 tt c -> forall u op', In (EDone u op' ROk) (hist c) -> op' = OClose \/ op' = ODestroy -> clos (sh c) = true.
Proof.
  intros Hr. enough (H : Inv c /\ forall u op', In (EDone u op' ROk) (hist c) -> op' = OClose \/ op' = ODestroy -> clos (sh c) = true) by apply H. revert Hr.
  apply (reachable_inv (sxprog allowed) (fun c => Inv c /\ forall u op', In (EDone u op' ROk) (hist c) -> op' = OClose \/ op' = ODestroy -> clos (sh c) = true)).
  - split; [apply (@Inv_reachable allowed n); exists []; reflexivity|]. intros u op' [].
  - intros c0 c1 [HI H] Hs. split; [eapply Inv_step; eauto|]. destruct Hs as
     [t l op Ht Hp ->|t ps e l op k s' ns o thr' Ht Hfr Hd ->|t p l m ns thr' Ht Hd ->
     |t l op cv k Ht ->|t l op cv k k' Ht Hk ->|t l op cv k k' Ht Hk ->|t l op k k' Ht Hk ->]; try discriminate Hk; cbn [sh hist]; auto.
    + intros u op' [Hin|Hin]; [discriminate|eauto].
    + cbn [frag sxprog] in Hfr. eapply clos_frag; eauto. exact (Forall_nth_error (v_st HI) Ht).
Qed.
Lemma refused allowed n c t r h1 h0 : reachable (sxprog allowed) n sx0 tt c -> hist c = h1 ++ EDone t OSubmit r :: h0 ->
  forall u op', In (EDone u op' ROk) h0 -> op' = OClose \/ op' = ODestroy -> r = RClosed.
Proof.
  intros Hr E u op' Hin Hop. destruct (event_step (sxprog allowed) h1 (EDone t OSubmit r) h0 Hr E) as (c0 & lb & c1 & Hr0 & Hlb & E0 & E1 & _). pose proof (step_inv _ _ _ Hlb) as Hst.
  pose proof (Inv_reachable Hr0) as HI. pose proof (closed_seen Hr0) as Hcl. rewrite E0 in Hcl. specialize (Hcl _ _ Hin Hop).
  destruct Hst as
   [t0 l op0 Ht Hp ->|t0 ps e l op0 k s' ns o thr' Ht Hfr Hd ->|t0 p l m ns thr' Ht Hd ->
   |t0 l op0 cv k Ht ->|t0 l op0 cv k k' Ht Hk ->|t0 l op0 cv k k' Ht Hk ->|t0 l op0 k k' Ht Hk ->]; cbn in E1; try discriminate Hk.
  all: try (rewrite E0 in E1; try discriminate; exfalso; apply (f_equal (@length _)) in E1; cbn in E1; lia).
  assert (Hk : okk (sh c0) op0 k) by (eapply (Forall_nth_error (v_st HI) Ht)). cbn [frag sxprog] in Hfr.
  assert (op0 = OSubmit /\ o = ORet xk xcv r) as [-> ->].
  { rewrite E0 in E1. destruct o as [r0|r0 ns0|cv0 k0|k0|]; cbn in E1; try (exfalso; apply (f_equal (@length _)) in E1; cbn in E1; lia).
    - injection E1 as -> -> ->. auto.
    - exfalso. revert Hfr. clear. destruct k as [op1| |m|m i|m i|i|]; cbn [xfrag]; try (destruct op1); try (destruct m); try (destruct (q _)); try (destruct (finished i _));
      try (destruct (take_nth e _) as [[? ?]|]); try (destruct (wstart _)); try (destruct (wdone _)); try (destruct (clos _)); intros Hf; inversion Hf. }
  destruct k as [op1| |m|m i|m i|i|]; cbn [okk] in Hk; try discriminate; try (destruct Hk as [Hk _]; try discriminate; destruct m; discriminate).
  subst op1. cbn [xfrag] in Hfr. rewrite Hcl in Hfr. inversion Hfr. reflexivity.
Qed.
