(** * Proofs about futures *)
From Verif Require Export FU_Count.
Set Implicit Arguments.

Notation std kd := (ops_of kd false false).

(** ** Every result is legal *)
Record Inv (kd : kind) (c : fuconf) : Prop := {
  i_stat : Forall (stat kd (sh c)) (thr c);
  i_nums : nums kd (sh c) (thr c);
  i_abs : abs (decided (hist c)) (sh c);
  i_legal : forall h2 t op r h1, hist c = h2 ++ EDone t op r :: h1 -> legal (decided h1) op r }.

Lemma split_cons A (a : A) l h2 b h1 : a :: l = h2 ++ b :: h1 -> (a = b /\ l = h1) \/ exists h2', h2 = a :: h2' /\ l = h2' ++ b :: h1.
Proof. destruct h2 as [|x h2]; simpl; intros [= -> ->]; [left; auto|right; eauto]. Qed.

Lemma nums_same kd s l l' : cnt isF l' = cnt isF l -> nums kd s l -> nums kd s l'.
Proof. intros E [H1 H2 H3 H4]. constructor; rewrite ?E; auto. Qed.

Section Main.
  Variables (iag : bool) (al : fop -> bool) (kd : kind).
  Hypothesis Hal : forall op, al op = true -> std kd op = true.
  Notation P := (fuprog iag al).

  Lemma Inv_step c c' : Inv kd c -> stepcase P c c' -> Inv kd c'.
  Proof.
    intros [Hst HN Ha HL] Hs. destruct Hs as
     [t l op Ht Hp ->|t ps e l op k s' ns o thr' Ht Hfr Hd ->|t p l n ns thr' Ht Hd ->
     |t l op cv k Ht ->|t l op cv k k' Ht Hk ->|t l op cv k k' Ht Hk ->|t l op k k' Ht Hk ->].
    - constructor; cbn [sh thr hist].
      + apply Forall_upd; auto. split; [reflexivity|]. exact (Hal Hp).
      + eapply nums_same; [|exact HN]. pose proof (cnt_upd isF _ (Ready fcv l op (KStart op)) _ _ Ht) as U. cbn [kw isF start fuprog] in *. lia.
      + cbn [decided decides]. destruct (decided (hist c)); exact Ha.
      + intros h2 t' op' r h1 E. apply split_cons in E as [[E _]|(h2' & _ & E)]; [discriminate|eauto].
    - pose proof (Forall_nth_error Hst Ht) as Hx. pose proof (deliver_all_woken Hd) as Hw.
      assert (Ht' : nth_error thr' t = Some (Ready fcv l op k)) by (apply (woken_not_asleep Hw Ht); reflexivity).
      pose proof (nums_same _ (cnt_woken isF _ _ Hw) HN) as HN'.
      cbn [frag fuprog] in Hfr. destruct (frag_ok _ al _ _ _ _ _ _ _ _ _ l op (hist c) thr' Hfr Ha HN' Ht' Hx) as (F1 & F2 & F3 & F4 & F5 & F6 & F7).
      destruct (after P t l op o (hist c)) as [y h] eqn:Ea. cbn [fst] in *.
      assert (Hh : (forall r, o = ORet fk fcv r -> h = EDone t op r :: hist c) /\ ((forall r, o <> ORet fk fcv r) -> h = hist c)).
      { destruct o; simpl in Ea; try contradiction; injection Ea as <- <-; split; try congruence; intros H; exfalso; eapply H; eauto. }
      destruct Hh as [Hh1 Hh2]. constructor; cbn [sh thr hist snd].
      + apply Forall_upd; auto. pose proof (woken_Forall _ Hw (stat_wake kd (sh c)) Hst) as Hst'.
        rewrite Forall_forall in Hst' |- *. intros x Hin. apply (stat_mono kd (sh c)); auto.
        intros A B. pose proof (deliver_all_NAll P CWaiters _ _ _ Hd (F5 A B)) as Hn. rewrite Forall_forall in Hn. specialize (Hn _ Hin).
        destruct x; simpl; auto. discriminate Hn.
      + exact F3.
      + destruct o as [r|r ns'|cv k'|k'|]; try contradiction; cbn [after_d] in F1.
        * rewrite (Hh1 r eq_refl). cbn [decided]. exact F1.
        * rewrite Hh2 by congruence. exact F1.
        * rewrite Hh2 by congruence. exact F1.
      + intros h2 t' op' r' h1 E. destruct o as [r|r ns'|cv k'|k'|]; try contradiction.
        * rewrite (Hh1 r eq_refl) in E. apply split_cons in E as [[E E']|(h2' & _ & E)]; [|eauto]. injection E as <- <- <-. subst h1. exact F7.
        * rewrite Hh2 in E by congruence. eauto.
        * rewrite Hh2 in E by congruence. eauto.
    - destruct (Forall_nth_error Hst Ht).
    - constructor; cbn [sh thr hist]; auto.
      + apply Forall_upd; auto. exact (stat_wake kd (sh c) (Asleep l op cv k) eq_refl (Forall_nth_error Hst Ht)).
      + eapply nums_same; [|exact HN]. pose proof (cnt_upd isF _ (Ready fcv l op k) _ _ Ht) as U. cbn [kw] in *. lia.
    - pose proof (Forall_nth_error Hst Ht) as (X1 & X2 & -> & X3). cbn in Hk. destruct op; try discriminate. injection Hk as <-.
      constructor; cbn [sh thr hist]; auto.
      + apply Forall_upd; auto. split; auto.
      + eapply nums_same; [|exact HN]. pose proof (cnt_upd isF _ (Ready fcv l OWaitUntil (KLast OWaitUntil)) _ _ Ht) as U. cbn [kw isF] in *. lia.
    - pose proof (Forall_nth_error Hst Ht) as (X1 & X2 & -> & X3). cbn in Hk. injection Hk as <-.
      constructor; cbn [sh thr hist]; auto.
      + apply Forall_upd; auto. split; auto.
      + eapply nums_same; [|exact HN]. pose proof (cnt_upd isF _ (Ready fcv l op (KIntr op)) _ _ Ht) as U. cbn [kw isF] in *. lia.
    - pose proof (Forall_nth_error Hst Ht) as [X1 X2]. cbn in Hk. destruct k as [|op'| | | | |]; try discriminate. injection Hk as <-. cbn [kop] in *. subst op'.
      constructor; cbn [sh thr hist]; auto.
      + apply Forall_upd; auto. split; [reflexivity|tauto].
      + eapply nums_same; [|exact HN]. pose proof (cnt_upd isF _ (Ready fcv l op (KIntr op)) _ _ Ht) as U. cbn [kw isF] in *. lia.
  Qed.

  Lemma not_ub c t e l op k s' ns o : Inv kd c -> nth_error (thr c) t = Some (Ready fcv l op k) -> ffrag iag t e k (sh c) = (s', ns, o) -> o <> OUB fk fcv res.
  Proof.
    intros [Hst HN Ha HL] Ht Hfr ->. pose proof (Forall_nth_error Hst Ht) as Hx.
    destruct (frag_ok _ al _ _ _ _ _ _ _ _ _ l op (hist c) (thr c) Hfr Ha HN Ht Hx) as (_ & _ & _ & _ & _ & _ & F). exact F.
  Qed.

  Lemma Inv_reachable n c : reachable P n (finit kd) tt c -> Inv kd c.
  Proof.
    apply (reachable_inv P (Inv kd)).
    - constructor; cbn [sh thr hist init].
      + apply Forall_forall. intros x Hx. apply repeat_spec in Hx. subst. exact I.
      + constructor; rewrite ?cnt_repeat; destruct kd; simpl; auto.
      + destruct kd; simpl; auto.
      + intros h2 t op r h1 E. destruct h2; discriminate.
    - intros c0 c1 H Hs. eapply Inv_step; eauto.
  Qed.

  Lemma no_crash n c : reachable P n (finit kd) tt c -> ~ In (Crashed fk fop fcv unit) (thr c).
  Proof. intros Hr Hin. pose proof (i_stat (Inv_reachable Hr)) as H. rewrite Forall_forall in H. exact (H _ Hin). Qed.

  (** *** rest *)
  Definition frank (k : fk) : nat := match k with KStart _ => 5 | KFun _ => 4 | KLoop _ => 3 | KGos _ => 2 | KGos2 _ => 1 | _ => 0 end.
  Lemma fu_ranked : ranked P frank.
  Proof.
    intros t e k s s' ns o Hf. cbn [frag fuprog] in Hf. destruct s as [v x dn cs df vl tk stt cl].
    destruct k as [op|op|op|op|w|w|op]; [destruct op; try destruct o0|destruct op| |destruct op, e| | |]; destruct iag; cbn [ffrag with_notif] in Hf;
    open_frag Hf; inversion Hf; subst; cbn [frank]; auto; lia.
  Qed.
  Lemma settles n c : reachable P n (finit kd) tt c ->
    exists ls c', run P c ls = Some c' /\ quiescent c' /\ Forall (fun lb => match lb with LRun _ _ _ _ => True | _ => False end) ls.
  Proof.
    intros Hr. destruct (ranked_settles (Val 0) fu_ranked Hr) as (ls & c' & Hrun & [Hq|Hx] & Hf); [eauto|]. exfalso.
    assert (Hr' : reachable P n (finit kd) tt c') by (eapply reachable_run; eauto). exact (no_crash Hr' Hx).
  Qed.
  Lemma at_rest n c t : reachable P n (finit kd) tt c -> quiescent c -> decided (hist c) <> None \/ kd = KDeferred -> t < length (thr c) ->
    exists l, nth_error (thr c) t = Some (Idle fk fop fcv l).
  Proof.
    intros Hr Hq Hd Hlt. destruct (Inv_reachable Hr) as [Hst HN Ha _].
    destruct (nth_error (thr c) t) as [x|] eqn:Ht; [|apply nth_error_None in Ht; lia].
    destruct (quiescent_settled Hq Ht) as [(l & ->)|(l & op & cv & k & ->)]; [now exists l|]. exfalso.
    pose proof (Forall_nth_error Hst Ht) as (X1 & X2 & _).
    destruct Hd as [Hd| ->].
    - destruct (decided (hist c)) as [[v|e]|]; [| |congruence]; cbn in Ha; destruct Ha; congruence.
    - pose proof (n_fun _ _ _ HN) as E. rewrite X1, X2 in E. cbn in E.
      assert (cnt isF (thr c) = 0); [|lia]. apply sumw_zero. intros y Hin. apply In_nth_error in Hin as [i Hi].
      destruct (quiescent_settled Hq Hi) as [(l' & ->)|(l' & op' & cv' & k' & ->)]; [reflexivity|].
      pose proof (Forall_nth_error Hst Hi) as (_ & _ & -> & _). reflexivity.
  Qed.
End Main.

(** ** get *)
Section Get.
  Variables (kd : kind).
  Definition getal (op : fop) : bool := std kd op && noget op.
  Notation P := (fuprog true getal).
  Lemma getal_std op : getal op = true -> std kd op = true.
  Proof. unfold getal. intros H. now apply andb_prop in H as [H _]. Qed.
  Lemma getal_noget op : getal op = true -> noget op = true.
  Proof. unfold getal. intros H. now apply andb_prop in H as [_ H]. Qed.

  Lemma get_E1 n c : reachable P n (finit kd) tt c -> b2n (negb (valid (sh c))) = cnt isG (thr c) + tot getev (hist c).
  Proof.
    intros Hr. assert (Z : forall h : list fevent, tot (fun _ => 0) h = 0) by (induction h; simpl; auto).
    rewrite <- (Nat.add_0_r (b2n _)), <- (Z (hist c)).
    apply (additive true getal isG (fun s => b2n (negb (valid s))) (fun _ => 0) getev) with (kd := kd) (n := n); auto.
    - intros t e k s s' ns o Hf Ha Ho. destruct (frag_get _ _ _ _ _ _ _ Hf (getal_noget _ Ha) Ho) as (F & _). destruct o; cbn [gout] in *; lia.
    - apply (no_crash getal_std Hr).
  Qed.
  Lemma get_E2 n c : reachable P n (finit kd) tt c -> tot getcall (hist c) = cnt inG (thr c) + tot getdone (hist c).
  Proof.
    intros Hr. change (0 + tot getcall (hist c) = cnt inG (thr c) + tot getdone (hist c)).
    apply (additive true getal inG (fun s => 0) getcall getdone) with (kd := kd) (n := n); auto.
    - intros t e k s s' ns o Hf Ha Ho. destruct (frag_get _ _ _ _ _ _ _ Hf (getal_noget _ Ha) Ho) as (_ & F & _). destruct o as [[? ?]| | | |]; cbn [gout getcall] in *; lia.
    - apply (no_crash getal_std Hr).
  Qed.
  Lemma get_E3 n c : reachable P n (finit kd) tt c -> b2n (taken (sh c)) <= tot getev (hist c).
  Proof.
    apply (reachable_ind' (P := P) (fun c => b2n (taken (sh c)) <= tot getev (hist c))); [destruct kd; simpl; lia|].
    intros c0 c1 Hr H Hs. pose proof (ok0_reachable _ _ _ _ _ Hr) as H0. destruct Hs as
     [t l op Ht Hp ->|t ps e l op k s' ns o thr' Ht Hfr Hd ->|t p l n' ns thr' Ht Hd ->
     |t l op cv k Ht ->|t l op cv k k' Ht Hk ->|t l op cv k k' Ht Hk ->|t l op k k' Ht Hk ->]; cbn [sh hist tot fold_right getev Nat.add]; auto.
    pose proof (Forall_nth_error H0 Ht) as [Hx Ha]. cbn [frag fuprog] in Hfr. subst op.
    pose proof (not_ub true getal _ _ (Inv_reachable getal_std Hr) Ht Hfr) as Ho.
    destruct (frag_get _ _ _ _ _ _ _ Hfr (getal_noget _ Ha) Ho) as (_ & _ & F & _).
    pose proof (frag_no_fin _ _ _ _ _ _ _ _ Hfr) as F1.
    destruct o as [r|r ns'|cv k'|k'|]; try contradiction; cbn [after snd gout tot fold_right] in *; fold (tot getev (hist c0)); lia.
  Qed.

  Lemma get_event n c h2 t x r h1 : reachable P n (finit kd) tt c -> hist c = h2 ++ EDone t OGet (x, r) :: h1 ->
    (0 < tot getev h1 -> r = RUninit) /\ r <> RMoved /\ (r = RUninit -> 2 <= tot getcall h1).
  Proof.
    intros Hr E. destruct (event_step P _ _ _ Hr E) as (c1 & lb & c2 & Hr1 & Hs & E1 & E2 & _). apply step_inv in Hs.
    pose proof (get_E1 Hr1) as G1. pose proof (get_E2 Hr1) as G2. pose proof (get_E3 Hr1) as G3. rewrite E1 in *.
    pose proof (ok0_reachable _ _ _ _ _ Hr1) as H0.
    destruct Hs as
     [t' l op Ht Hp ->|t' ps e l op k s' ns o thr' Ht Hfr Hd ->|t' p l n' ns thr' Ht Hd ->
     |t' l op cv k Ht ->|t' l op cv k k' Ht Hk ->|t' l op cv k k' Ht Hk ->|t' l op k k' Ht Hk ->]; cbn [hist] in E2;
     try (exfalso; rewrite E1 in E2; apply (f_equal (@length _)) in E2; simpl in E2; lia); [rewrite E1 in E2; discriminate|].
    pose proof (Forall_nth_error H0 Ht) as [Hx Ha]. cbn [frag fuprog] in Hfr. subst op.
    pose proof (frag_no_fin _ _ _ _ _ _ _ _ Hfr) as F1.
    destruct o as [r'|r' ns'|cv k'|k'|]; try contradiction; cbn [after snd] in E2; rewrite E1 in E2;
      try (exfalso; apply (f_equal (@length _)) in E2; simpl in E2; lia).
    injection E2 as <- Ek Er. subst r'.
    destruct (frag_get _ _ _ _ _ _ _ Hfr (getal_noget _ Ha)) as (A1 & A2 & A3 & A4 & A5 & A6); [congruence|].
    pose proof (cnt_ge isG _ _ _ Ht) as B1. pose proof (cnt_ge inG _ _ _ Ht) as B2. cbn [kw] in *.
    assert (B3 : inG k = 1) by (unfold inG; now rewrite Ek).
    assert (K1 : 0 < tot getev h1 -> r = RUninit).
    { intros Hpos. destruct (valid (sh c1)) eqn:Ev; cbn in G1; [lia|]. destruct r; auto; exfalso; destruct (A6 B3) as [X|X]; try lia; congruence. }
    split; [exact K1|]. split.
    - intros ->. cbn in A4. rewrite A4 in G3. cbn in G3. discriminate (K1 G3).
    - intros ->. cbn in A5. rewrite A5 in G1. cbn in G1.
      assert (Hsplit : cnt inG (thr c1) = cnt isG (thr c1) + cnt (fun k => inG k - isG k) (thr c1)).
      { unfold cnt. rewrite <- sumw_plus. apply sumw_ext. intros y _. destruct y as [|? ? []|? ? ? []| |]; cbn; try destruct op0; reflexivity. }
      pose proof (cnt_ge (fun k => inG k - isG k) _ _ _ Ht) as B4. cbn [kw] in B4.
      rewrite Ek in A1. cbn [gout getev out_k] in A1.
      assert (Hle : forall h, tot getev h <= tot getdone h).
      { induction h as [|ev h IH]; simpl; auto. destruct ev as [|? [] [? []]]; simpl; lia. }
      specialize (Hle h1).
      assert (isG k = 0).
      { destruct k as [op|op|op|op|w|w|op]; cbn [kop] in *; try (subst op); auto; exfalso; clear - Hfr; cbn [ffrag with_notif] in Hfr.
        - destruct (sh c1) as [v0 x0 dn cs df vl tk stt cl]; open_frag Hfr.
        - destruct (sh c1) as [v0 x0 dn cs df vl tk stt cl]; open_frag Hfr.
        - destruct (sh c1) as [v0 x0 dn cs df vl tk stt cl]; destruct e; open_frag Hfr.
        - inversion Hfr. }
      lia.
  Qed.
End Get.
