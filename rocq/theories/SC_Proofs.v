(** * Proofs about the scheduled executors *)
From Coq Require Import Permutation.
From Verif Require Import Monitor MonitorLemmas MonWake Settle SQ_Model SQ_Spec SQ_Proofs TQ_Model TQ_Spec TQ_Proofs.
From Verif Require Export SC_Model.
Set Implicit Arguments.

Section SC.
  Variable V : Type.
  Variables push_heap pop_heap : list (V * Z) -> list (V * Z).
  Variable steady : bool.
  Variable poll : Z.
  Hypothesis HC : PQ_contract (@s_lt V) push_heap pop_heap.
  Notation P := (scprog push_heap pop_heap steady poll).
  Notation tst := (tstat (sk V) (sop V) scv unit).
  Notation conf := (cfg (sc V) (sk V) (sop V) (sres) scv unit).
  Notation tfr := (tfrag push_heap pop_heap steady poll).

  Lemma wait_ub t e k s : is_heap (@s_lt V) (t_data s) -> kfit TWaitPull k -> ub_only TWaitPull s (tfr t e k s).
  Proof.
    intros Hh Hf. destruct e as [busy ds]. destruct k as [op'|op' dl|op' dl|op' tp|op' dl tp|]; simpl in Hf; unfold tfrag.
    - subst op'. apply loop_ub; simpl; auto.
    - destruct Hf as (-> & Hf). apply loop_ub; auto.
    - destruct Hf as (-> & Hf). apply inner_ub; auto.
    - destruct Hf as (-> & [Hf|(d & Hf)]); discriminate.
    - destruct Hf as (-> & Hf). apply loop_ub; auto.
    - exact I.
  Qed.
  Lemma wait_quiet t ds k s : kfit TWaitPull k -> let '(_, ns, o) := tfr t (false, ds) k s in ns = [] /\ match o with OFin _ _ _ => False | _ => True end.
  Proof.
    intros Hk. set (good := fun x : tout V => let '(_, ns, o) := x in ns = [] /\ match o with OFin _ _ _ => False | _ => True end).
    change (good (tfr t (false, ds) k s)).
    assert (Hpull : forall s, good (t_pull pop_heap s)).
    { intros s1. unfold t_pull, good. destruct (pq_pull pop_heap (t_data s1)) as [[? ?]|]; split; auto. }
    assert (Hck : forall op dl s ds k, (forall s ds, good (k s ds)) -> good (checks pop_heap steady op dl s ds k)).
    { intros op dl s1 ds1 k1 Hk1. unfold checks. destruct (reached steady s1 ds1) as [[b s2] ds2].
      destruct b; [apply Hpull|]. destruct (t_closed s2); [split; auto|].
      destruct (past steady dl s2 ds2) as [[p s3] ds3]. destruct p; [split; auto|apply Hk1]. }
    assert (Hout : forall op dl s ds, good (outer_wait steady poll op dl s ds)).
    { intros op dl s1 ds1. unfold outer_wait. destruct (t_data s1); [split; auto|].
      destruct (if steady then _ else _) as [lim s2]. split; auto. }
    assert (Hp2 : forall op dl s ds, good (part2 pop_heap steady poll op dl s ds)).
    { intros. apply Hck. intros. apply Hout. }
    assert (Hin : forall op dl s ds, good (inner_wait pop_heap steady poll op dl s ds)).
    { intros. unfold inner_wait. destruct (t_data s0); [destruct (t_closed s0)|]; try apply Hp2. split; auto. }
    assert (Hlt : forall op dl s ds, good (loop_top pop_heap steady poll op dl s ds)).
    { intros. apply Hck. intros. apply Hin. }
    destruct k as [op|op dl|op dl|op tp|op dl tp|]; unfold tfrag; auto; simpl in Hk.
    - subst op. apply Hlt.
    - destruct Hk as (_ & [Hk|(d & Hk)]); discriminate.
    - split; auto.
  Qed.
  Definition same (s  s' : tq V) : Prop := Permutation (t_data s') (t_data s) /\ t_closed s' = t_closed s.
  Lemma same_In s s' e : same s s' -> In e (t_data s') -> In e (t_data s).
  Proof. intros [H _]. apply Permutation_in. exact H. Qed.
  Lemma wait_post t ds k s q' ns o : is_heap (@s_lt V) (t_data s) -> kfit TWaitPull k -> tfr t (false, ds) k s = (q', ns, o) ->
    is_heap (@s_lt V) (t_data q') /\ (steady = true -> (t_now s <= t_now q')%Z) /\
    match o with
    | ORet _ _ (TGot x) => ns = [] /\ t_closed q' = t_closed s /\ Permutation (t_data s) (x :: t_data q') /\ (snd x <= t_now q')%Z /\ (forall e, In e (t_data s) -> (snd x <= snd e)%Z)
    | ORet _ _ r => ns = [] /\ same s q' /\ (r = TSt qs_closed /\ t_closed s = true \/ r = TThrowIntr)
    | OSleep _ cv k' => ns = [] /\ kfit TWaitPull k' /\ t_data q' = t_data s /\ t_closed q' = false /\ t_closed s = false /\ sleep_ok k' (t_data q')
    | _ => False
    end.
  Proof.
    intros Hh Hk Hf. pose proof (@frag_post _ _ _ steady poll HC t (false, ds) TWaitPull k s Hh Hk eq_refl) as F. pose proof (@wait_ub t (false, ds) k s Hh Hk) as U. rewrite Hf in F, U.
    pose proof (wait_quiet t ds k s Hk) as Q. rewrite Hf in Q. destruct Q as [-> Q].
    destruct F as (F1 & F2 & F3). split; auto. split; auto. destruct o as [r|r ns'|cv k'|k'|].
    - destruct F3 as ((now0 & l' & Hst & Hp & _) & Hns).
      assert (G : match r with TGot x => t_closed q' = t_closed s /\ Permutation (t_data s) (x :: t_data q') /\ (snd x <= t_now q')%Z /\ (forall e, In e (t_data s) -> (snd x <= snd e)%Z)
                  | _ => same s q' /\ (r = TSt qs_closed /\ t_closed s = true \/ r = TThrowIntr) end).
      { inversion Hst; subst; repeat match goal with H : _ \/ _ |- _ => destruct H | H : _ /\ _ |- _ => destruct H | H : (_, _) = (_, _) |- _ => inversion H; subst; clear H | H : ex _ |- _ => destruct H end;
          try discriminate; try congruence; unfold same; repeat split; auto; try (rewrite Hp; auto; fail); try congruence.
        all: try (subst r; auto); simpl in *; exfalso; intuition discriminate. }
      destruct r; tauto.
    - tauto.
    - tauto.
    - contradiction.
    - destruct U as ((tp & [U|U]) & _); discriminate.
  Qed.

  Definition sfit (op : sop V) (k : sk V) : Prop :=
    match k with
    | SkGo op' => op' = op
    | SkPush _ _ => match op with SSubmitAt _ _ | SSubmitAfter _ _ => True | _ => False end
    | SkQ k => op = SLoop /\ kfit TWaitPull k
    | SkRun _ | SkTell (Some _) => op = SLoop
    | SkTell None => op = SClose
    end.
  Definition sstat (x : tst) : Prop :=
    match x with Idle _ _ _ _ => True | Ready _ _ op k => sfit op k | Asleep _ op _ k => sfit op k /\ (exists k', k = SkQ k') | _ => False end.
  Definition slk (s : tq V) (k : sk V) : Prop := match k with SkQ k => sleep_ok k (t_data s) /\ t_closed s = false | _ => False end.
  Definition sl_ok (s : tq V) (x : tst) : Prop := match x with Asleep _ _ _ k => slk s k | _ => True end.
  Definition pend (x : tst) : nat := match x with Ready _ _ _ (SkTell _) => 1 | _ => 0 end.
  Definition runk (k : sk V) : list (V * Z) := match k with SkRun e | SkTell (Some e) => [e] | _ => [] end.
  Definition running (x : tst) : list (V * Z) := match x with Ready _ _ _ k => runk k | _ => [] end.
  Definition out_run (o : outcome (sk V) scv sres) : list (V * Z) := match o with OYield _ _ k => runk k | _ => [] end.
  Lemma flat_upd {A B} (f : A -> list B) l t x y : nth_error l t = Some x -> Permutation (f x ++ flat_map f (upd l t y)) (f y ++ flat_map f l).
  Proof.
    revert t; induction l as [|z l IH]; intros [|t] H; simpl in *; try discriminate.
    - injection H as ->. rewrite !app_assoc. apply Permutation_app_tail. apply Permutation_app_comm.
    - specialize (IH _ H). rewrite !app_assoc, (Permutation_app_comm (f x)), (Permutation_app_comm (f y)), <- !app_assoc. apply Permutation_app_head. exact IH.
  Qed.

  (** what one fragment does *)
  Record fpost (op : sop V) (k : sk V) (s s' : sc V) (ns : list (notif scv)) (o : outcome (sk V) scv sres) : Prop := {
    p_heap : is_heap (@s_lt V) (t_data (s_q s'));
    p_acc : Permutation (s_acc s) (map fst (s_start s) ++ t_data (s_q s)) -> Permutation (s_acc s') (map fst (s_start s') ++ t_data (s_q s'));
    p_end : exists new fin, map fst (s_start s') = new ++ map fst (s_start s) /\ s_end s' = fin ++ s_end s /\ Permutation (new ++ runk k) (fin ++ out_run o);
    p_start : s_start s' = s_start s /\ incl (s_acc s) (s_acc s') \/
      exists x, s_start s' = (x, t_now (s_q s')) :: s_start s /\ s_acc s' = s_acc s /\ (snd x <= t_now (s_q s'))%Z /\
        (forall e, In e (t_data (s_q s)) -> (snd x <= snd e)%Z) /\ Permutation (t_data (s_q s)) (x :: t_data (s_q s'));
    p_now : steady = true -> (t_now (s_q s) <= t_now (s_q s'))%Z;
    p_out : match o with ORet _ _ _ => True | OYield _ _ k' => sfit op k' | OSleep _ cv k' => sfit op k' /\ slk (s_q s') k' | _ => False end;
    p_ns : In (NAll Cond) ns \/ ns = [] /\ ((forall e, In e (t_data (s_q s')) -> In e (t_data (s_q s))) /\ t_closed (s_q s') = t_closed (s_q s) \/ exists e, o = OYield scv sres (SkTell e));
    p_pend : In (NAll Cond) ns \/ match k with SkTell _ => False | _ => True end;
    p_cl : t_closed (s_q s) = true -> t_closed (s_q s') = true }.
  Lemma push_heap_ok x s : is_heap (@s_lt V) (t_data s) -> is_heap (@s_lt V) (pq_push push_heap x (t_data s)) /\ Permutation (pq_push push_heap x (t_data s)) (x :: t_data s).
  Proof.
    intros Hh. pose proof (@push_post _ _ _ steady HC (TPush (fst x) (snd x)) (MkTQ (t_data s) false 0%Z) (fst x) (snd x) TVoid TThrowClosed Hh (or_introl (conj eq_refl (conj eq_refl eq_refl)))) as F.
    destruct x as [x d]. cbn in F. destruct F as (_ & F1 & ((n0 & l' & Hst & Hp & _) & _)). split; auto. rewrite Hp. inversion Hst; subst; repeat match goal with H : _ \/ _ |- _ => destruct H end; try discriminate; try (match goal with H : (_, _) = (_, _) |- _ => inversion H; subst end); auto.
  Qed.

  Lemma frag_ok t a k s s' ns o op : sfrag push_heap pop_heap steady poll t a k s = (s', ns, o) -> sfit op k -> is_heap (@s_lt V) (t_data (s_q s)) -> fpost op k s s' ns o.
  Proof.
    intros Hf Hk Hh.
    assert (Hpush : forall x due ok bad, s_push push_heap x due s ok bad = (s', ns, o) -> out_run ok = runk k -> out_run bad = runk k -> (forall e, k <> SkTell e) ->
      match ok with ORet _ _ _ => True | OYield _ _ k' => sfit op k' | _ => False end -> match bad with ORet _ _ _ => True | OYield _ _ k' => sfit op k' | _ => False end -> fpost op k s s' ns o).
    { intros x due ok bad E E1 E2 E3 E4 E5. unfold s_push in E. destruct (t_closed (s_q s)) eqn:Ec; inversion E; subst; clear E.
      - constructor; auto; try lia.
        + exists [], []. repeat split; auto. simpl. now rewrite E2.
        + left. split; auto. apply incl_refl.
        + destruct o; auto; contradiction.
        + right. destruct k; auto. destruct (E3 _ eq_refl).
      - destruct (push_heap_ok (x, due) _ Hh) as [G1 G2]. constructor; cbn [s_q s_acc s_start s_end t_data t_closed t_now]; auto; try lia; try congruence.
        + intros Hp. rewrite G2. rewrite Hp. apply Permutation_middle.
        + exists [], []. repeat split; auto. simpl. now rewrite E1.
        + left. split; auto. apply incl_tl, incl_refl.
        + destruct o; auto; contradiction.
        + left. simpl. auto.
        + left. simpl. auto. }
    destruct k as [op'|x due|k|e|[e|]]; cbn [sfrag sfit] in *.
    - subst op'. destruct op as [x tp|x d| | |].
      + inversion Hf; subst. constructor; simpl; auto; try lia. { exists [], []; auto. } { left; split; auto; apply incl_refl. }
      + destruct (read_clock steady (s_q s) (snd a)) as [[now q'] ds'] eqn:E. inversion Hf; subst. destruct (read_clock_later E) as [(E1 & E2 & E3) E4].
        constructor; cbn; rewrite ?E1, ?E2; auto. exists [], []; auto. left; split; auto; apply incl_refl.
      + inversion Hf; subst. constructor; simpl; auto; try lia. exists [], []; auto. left; split; auto; apply incl_refl. right. split; auto. right. eauto.
      + inversion Hf; subst. constructor; simpl; auto; try lia. { exists [], []; auto. } { left; split; auto; apply incl_refl. }
      + inversion Hf; subst. constructor; simpl; auto; try lia. { exists [], []; auto. } { left; split; auto; apply incl_refl. }
    - apply (Hpush _ _ _ _ Hf); auto; discriminate.
    - destruct Hk as [-> Hk]. unfold s_wait in Hf. destruct (tfr 0 (false, snd a) k (s_q s)) as [[q' ns0] o0] eqn:E. destruct (wait_post _ _ _ _ Hh Hk E) as (W1 & W2 & W3).
      destruct o0 as [r|r ns'|cv k'|k'|]; try contradiction.
      + assert (G : (exists x, r = TGot x) \/ (s', ns, o) = (MkSC q' (s_acc s) (s_start s) (s_end s), ns0, ORet (sk V) scv SVoid) /\ ns0 = [] /\ same (s_q s) q').
        { destruct r; try (right; inversion Hf; subst; tauto). left; eauto. }
        destruct G as [[x ->]|(G1 & -> & G2 & G3)].
        * inversion Hf; subst. destruct W3 as (-> & W4 & W5 & W6 & W7). constructor; cbn; auto; try congruence.
          -- intros Hp. rewrite Hp, W5. symmetry. apply Permutation_middle.
          -- exists [x], []. auto.
          -- right. exists x. auto.
          -- right. split; auto. left. split; auto. intros e He. apply (Permutation_in e (Permutation_sym W5)). right; auto.
        * inversion G1; subst. constructor; cbn; auto; try congruence.
          -- intros Hp. rewrite Hp, G2. reflexivity.
          -- exists [], []; auto.
          -- left; split; auto; apply incl_refl.
          -- right. split; auto. left. split; auto. intros e. apply (Permutation_in e G2).
      + inversion Hf; subst. destruct W3 as (-> & W4 & W5 & W6 & W7 & W8). constructor; cbn; auto; try congruence.
        all: try (rewrite W5; auto; fail). all: try (exists [], []; auto; fail). all: try (left; split; auto; apply incl_refl; fail).
        all: try (right; split; auto; left; rewrite W5; split; auto; congruence).
    - subst op. destruct a as [a ds]; cbn [fst] in Hf. destruct a as [| | | |x tp]; [| | | |apply (Hpush _ _ _ _ Hf); try reflexivity; discriminate].
      all: inversion Hf; subst; constructor; simpl; auto; try lia.
      all: try (left; split; auto; apply incl_refl). all: try (exists [], []; auto; fail). all: try (exists [], [e]; auto; fail).
      right. split; auto. right. eauto.
    - subst op. inversion Hf; subst; constructor; simpl; auto; try lia. exists [], []; auto. left; split; auto; apply incl_refl.
    - subst op. inversion Hf; subst; constructor; simpl; auto; try lia. exists [], []; auto. left; split; auto; apply incl_refl.
  Qed.

  Record SInv (c : conf) : Prop := {
    i_heap : is_heap (@s_lt V) (t_data (s_q (sh c)));
    i_acc : Permutation (s_acc (sh c)) (map fst (s_start (sh c)) ++ t_data (s_q (sh c)));
    i_run : Permutation (map fst (s_start (sh c))) (s_end (sh c) ++ flat_map running (thr c));
    i_st : Forall sstat (thr c);
    i_sl : Forall (sl_ok (s_q (sh c))) (thr c) \/ 0 < sumw pend (thr c);
    i_due : Forall (fun p => (snd (fst p) <= snd p)%Z) (s_start (sh c)) }.

  Lemma wake_sstat x : is_asleep x = true -> sstat x -> sstat (wake x).
  Proof. destruct x; simpl; try discriminate. tauto. Qed.
  Lemma running_woken l l' : woken_rel l l' -> Forall sstat l -> flat_map running l' = flat_map running l.
  Proof.
    revert l'; induction l as [|x l IH]; intros [|y l'] [Hlen Hw] Hs; try discriminate; auto. inversion Hs; subst. simpl. f_equal.
    - destruct (Hw 0 x eq_refl) as [[= ->]|[Ha [= ->]]]; auto. destruct x; try discriminate. destruct H1 as [_ [k' ->]]. reflexivity.
    - apply IH; auto. split; [simpl in Hlen; lia|]. intros i z Hz. exact (Hw (S i) z Hz).
  Qed.
  Lemma upd_run l t x y (r e : list (V * Z)) : nth_error l t = Some x -> running y = running x -> Permutation r (e ++ flat_map running l) -> Permutation r (e ++ flat_map running (upd l t y)).
  Proof.
    intros Ht E Hp. rewrite Hp. apply Permutation_app_head. pose proof (flat_upd running l t y Ht) as F. rewrite E in F. apply Permutation_app_inv_l in F. symmetry. exact F.
  Qed.

  Lemma SInv_step c c' : SInv c -> stepcase P c c' -> SInv c'.
  Proof.
    intros [IH IA IR IS IL ID] Hs. destruct Hs as
     [t l op Ht Hp ->|t ps e l op k s' ns o thr' Ht Hfr Hd ->|t p l n ns thr' Ht Hd ->
     |t l op cv k Ht ->|t l op cv k k' Ht Hk ->|t l op cv k k' Ht Hk ->|t l op k k' Ht Hk ->].
    - constructor; cbn [sh thr]; auto.
      + apply (upd_run _ _ _ _ Ht); auto.
      + apply Forall_upd; auto. reflexivity.
      + destruct IL as [IL|IL]; [left; apply Forall_upd; simpl; auto|right]. pose proof (sumw_upd pend (Ready scv l op (SkGo op)) Ht) as E. simpl in E. cbn [start scprog]. lia.
    - pose proof (Forall_nth_error IS Ht) as Hk. cbn [sstat] in Hk. cbn [frag scprog] in Hfr. destruct (frag_ok _ _ _ _ _ Hfr Hk IH) as [F1 F2 F4 F5 _ F7 F8 F9 F10].
      pose proof (deliver_all_woken Hd) as Hw. assert (Ht' : nth_error thr' t = Some (Ready scv l op k)) by (apply (woken_not_asleep Hw Ht); reflexivity).
      assert (Hok : match o with ORet _ _ _ | OYield _ _ _ | OSleep _ _ _ => True | _ => False end) by (destruct o; auto).
      constructor; cbn [sh thr]; auto.
      + destruct F4 as (new & fin & E1 & E2 & E3). rewrite E1, E2.
        pose proof (flat_upd running thr' t (fst (after P t l op o (hist c))) Ht') as U. rewrite (running_woken Hw IS) in U.
        assert (Ur : running (fst (after P t l op o (hist c))) = out_run o).
        { destruct o; try contradiction; auto; destruct F7 as [F7 F7']; destruct k0; try contradiction; reflexivity. }
        rewrite Ur in U. cbn [running] in U.
        (* new ++ started = fin ++ end ++ running' *)
        apply (Permutation_app_inv_l (runk k)).
        assert (G1 : Permutation (runk k ++ new ++ map fst (s_start (sh c))) (fin ++ out_run o ++ s_end (sh c) ++ flat_map running (thr c))).
        { rewrite IR. rewrite !app_assoc. apply Permutation_app_tail. apply Permutation_app_tail. rewrite Permutation_app_comm. exact E3. }
        rewrite G1. rewrite (Permutation_app_comm (runk k)), <- !app_assoc. apply Permutation_app_head.
        rewrite (Permutation_app_comm (out_run o)), <- app_assoc. apply Permutation_app_head.
        rewrite (Permutation_app_comm _ (out_run o)). rewrite <- U. apply Permutation_app_comm.
      + apply Forall_upd; [eapply woken_Forall; [exact Hw|apply wake_sstat|auto]|].
        destruct o; try contradiction; simpl; auto. destruct F7 as [F7 F7']. split; auto. destruct k0; try contradiction. eauto.
      + destruct F8 as [F8|(-> & F8)].
        * left. apply Forall_upd.
          -- pose proof (deliver_all_NAll P Cond _ _ _ Hd F8) as Hn. eapply Forall_impl; [|exact Hn]. intros [| |? ? [] ?| |]; simpl; auto; discriminate.
          -- destruct o; try contradiction; simpl; auto. apply F7.
        * cbn in Hd. injection Hd as <-. pose proof (sumw_upd pend (fst (after P t l op o (hist c))) Ht) as E. cbn [pend] in E.
          destruct F9 as [F9|F9]; [destruct F9|]. assert (E0 : match k with SkTell _ => 1 | _ => 0 end = 0) by (destruct k; auto; contradiction). rewrite E0 in E.
          destruct F8 as [[F8 F8']|[e0 F8]].
          -- destruct IL as [IL|IL]; [left|right; lia]. apply Forall_upd; [|destruct o; try contradiction; simpl; auto; apply F7].
             eapply Forall_impl; [|exact IL]. intros [| |l0 op0 cv0 k0| |]; simpl; auto. destruct k0; simpl; auto. intros [S1 S2]. split; [|congruence].
             destruct k0; simpl in *; auto. destruct (t_data (s_q s')) as [|z d] eqn:Ez; auto. exfalso. specialize (F8 z (or_introl eq_refl)). rewrite S1 in F8. destruct F8.
          -- right. subst o. cbn in E. cbn [after fst]. lia.
      + destruct F5 as [[-> _]|(x & -> & _ & Hx & _)]; auto.
    - destruct (Forall_nth_error IS Ht).
    - constructor; cbn [sh thr]; auto.
      + destruct (Forall_nth_error IS Ht) as [_ [k0 ->]]. apply (upd_run _ _ _ _ Ht); auto.
      + apply Forall_upd; auto. exact (proj1 (Forall_nth_error IS Ht)).
      + destruct IL as [IL|IL]; [left; apply Forall_upd; simpl; auto|right]. pose proof (sumw_upd pend (Ready scv l op k) Ht) as E. simpl in E. lia.
    - destruct (Forall_nth_error IS Ht) as [Hf [k0 ->]]. cbn [on_timeout scprog s_on_timeout] in Hk. destruct (t_on_timeout k0) as [k1|] eqn:Ek; [|discriminate]. injection Hk as <-. destruct Hf as [-> Hf].
      constructor; cbn [sh thr]; auto.
      + apply (upd_run _ _ _ _ Ht); auto.
      + apply Forall_upd; auto. split; auto. exact (kfit_timeout _ _ Hf Ek).
      + destruct IL as [IL|IL]; [left; apply Forall_upd; simpl; auto|right]. pose proof (sumw_upd pend (Ready scv l SLoop (SkQ k1)) Ht) as E. simpl in E. lia.
    - destruct (Forall_nth_error IS Ht) as [Hf [k0 ->]]. cbn [on_intr scprog s_on_intr] in Hk. destruct (t_on_intr k0) as [k1|] eqn:Ek; [|discriminate]. injection Hk as <-. destruct Hf as [-> Hf].
      constructor; cbn [sh thr]; auto.
      + apply (upd_run _ _ _ _ Ht); auto.
      + apply Forall_upd; auto. split; auto. exact (kfit_intr _ _ Hf Ek).
      + destruct IL as [IL|IL]; [left; apply Forall_upd; simpl; auto|right]. pose proof (sumw_upd pend (Ready scv l SLoop (SkQ k1)) Ht) as E. simpl in E. lia.
    - pose proof (Forall_nth_error IS Ht) as Hf. destruct k as [|? ?|k0| |]; try discriminate Hk. cbn [on_intr scprog s_on_intr] in Hk. destruct (t_on_intr k0) as [k1|] eqn:Ek; [|discriminate]. injection Hk as <-. destruct Hf as [-> Hf].
      constructor; cbn [sh thr]; auto.
      + apply (upd_run _ _ _ _ Ht); auto.
      + apply Forall_upd; auto. split; auto. exact (kfit_intr _ _ Hf Ek).
      + destruct IL as [IL|IL]; [left; apply Forall_upd; simpl; auto|right]. pose proof (sumw_upd pend (Ready scv l SLoop (SkQ k1)) Ht) as E. simpl in E. lia.
  Qed.
  Lemma SInv_reachable n now c : reachable P n (sc_new V now) tt c -> SInv c.
  Proof.
    apply (reachable_inv P SInv); [|intros c0 c1; apply SInv_step]. constructor; cbn; auto.
    - intros i x y Hx; destruct i; discriminate.
    - clear. induction n; simpl; auto.
    - apply Forall_forall; intros x Hx; apply repeat_spec in Hx; subst; exact I.
    - left. apply Forall_forall; intros x Hx; apply repeat_spec in Hx; subst; exact I.
  Qed.

  (** ** what submit promises *)
  Section Submit.
  Variable now0 : Z.
  Definition acc_at (s : sc V) (x : V) (d : Z) : Prop := exists due, In (x, due) (s_acc s) /\ (steady = true -> (now0 + d <= due <= t_now (s_q s) + d)%Z).
  Definition pfit (s : sc V) (op : sop V) (k : sk V) : Prop :=
    match k with
    | SkPush x due => op = SSubmitAt x due \/ exists d, op = SSubmitAfter x d /\ (steady = true -> (now0 + d <= due <= t_now (s_q s) + d)%Z)
    | SkTell _ => t_closed (s_q s) = true
    | _ => True end.
  Definition pstat (s : sc V) (x : tst) : Prop := match x with Ready _ _ op k | Asleep _ op _ k => pfit s op k | _ => True end.
  Definition hdone (s : sc V) (op : sop V) (r : sres) : Prop :=
    match op, r with
    | SSubmitAt x tp, SVoid => In (x, tp) (s_acc s)
    | SSubmitAfter x d, SVoid => acc_at s x d
    | SSubmitAt _ _, SThrowClosed | SSubmitAfter _ _, SThrowClosed | SClose, _ => t_closed (s_q s) = true
    | SSubmitAt _ _, _ | SSubmitAfter _ _, _ => False
    | _, _ => True end.
  Record JInv (c : conf) : Prop := {
    j_inv : SInv c; j_now : steady = true -> (now0 <= t_now (s_q (sh c)))%Z;
    j_p : Forall (pstat (sh c)) (thr c);
    j_h : forall t op r, In (EDone t op r) (hist c) -> hdone (sh c) op r }.
  Lemma frag_j t a k s s' ns o op : sfrag push_heap pop_heap steady poll t a k s = (s', ns, o) -> sfit op k -> fpost op k s s' ns o -> pfit s op k -> (steady = true -> (now0 <= t_now (s_q s))%Z) ->
    match o with ORet _ _ r => hdone s' op r | OYield _ _ k' | OSleep _ _ k' => pfit s' op k' | _ => True end.
  Proof.
    intros Hf Hk FP Hp Hn. assert (Hcl := p_cl FP). clear FP. destruct k as [op'|x due|k|e|[e|]]; cbn [sfrag sfit pfit] in *.
    - subst op'. destruct op as [x tp|x d| | |]; try (inversion Hf; subst; simpl; auto; fail).
      destruct (read_clock steady (s_q s) (snd a)) as [[now q'] ds'] eqn:E. inversion Hf; subst. destruct (read_clock_later E) as [(E1 & E2 & E3) E4]. cbn. right. exists d. split; auto. intros Hs. specialize (Hn Hs). specialize (E3 Hs). lia.
    - unfold s_push in Hf. destruct (t_closed (s_q s)) eqn:Ec; inversion Hf; subst; destruct Hp as [->|(d & -> & Hd)]; cbn; auto. exists due. simpl. auto.
    - destruct Hk as [-> Hk]. unfold s_wait in Hf. destruct (tfr 0 (false, snd a) k (s_q s)) as [[q' ns0] o0]. destruct o0 as [r|r ns'|cv k'|k'|]; [destruct r|..]; inversion Hf; subst; cbn; auto.
    - subst op. destruct a as [a ds]; cbn [fst] in Hf. destruct a as [| | | |x tp]; try (inversion Hf; subst; cbn; auto; fail).
      unfold s_push in Hf. destruct (t_closed (s_q s)); inversion Hf; subst; cbn; auto.
    - inversion Hf; subst. simpl. auto.
    - subst op. inversion Hf; subst. simpl. auto.
  Qed.
  Lemma JInv_step c c' : JInv c -> stepcase P c c' -> JInv c'.
  Proof.
    intros [JI JN JP JH] Hs. pose proof (SInv_step JI Hs) as JI'. destruct Hs as
     [t l op Ht Hp ->|t ps e l op k s' ns o thr' Ht Hfr Hd ->|t p l n ns thr' Ht Hd ->
     |t l op cv k Ht ->|t l op cv k k' Ht Hk ->|t l op cv k k' Ht Hk ->|t l op k k' Ht Hk ->].
    - constructor; cbn [sh thr hist]; auto; try (apply Forall_upd; auto; exact I). intros t0 op0 r0 [Hx|Hx]; [discriminate|exact (JH _ _ _ Hx)].
    - pose proof (Forall_nth_error (i_st JI) Ht) as Hk. cbn [sstat] in Hk. cbn [frag scprog] in Hfr. pose proof (frag_ok _ _ _ _ _ Hfr Hk (i_heap JI)) as FP.
      pose proof (frag_j t e Hfr Hk FP (Forall_nth_error JP Ht) JN) as FJ.
      pose proof (deliver_all_woken Hd) as Hw. destruct FP as [F1 F2 F4 F5 F6 F7 F8 F9 F10].
      assert (Hacc : incl (s_acc (sh c)) (s_acc s')) by (destruct F5 as [[_ F5]|(x & _ & F5 & _)]; [exact F5|rewrite F5; apply incl_refl]).
      assert (HA : forall x d, acc_at (sh c) x d -> acc_at s' x d) by (intros x d (due & A1 & A2); exists due; split; auto; intros Hs; specialize (A2 Hs); specialize (F6 Hs); lia).
      assert (HP : forall op k, pfit (sh c) op k -> pfit s' op k).
      { intros op0 k0. destruct k0; simpl; auto. intros [ -> |(d & -> & Hd0)]; auto. right. exists d. split; auto. intros Hs. specialize (Hd0 Hs). specialize (F6 Hs). lia. }
      constructor; cbn [sh thr hist]; auto.
      + intros Hs. specialize (JN Hs). specialize (F6 Hs). lia.
      + apply Forall_upd; [|destruct o; try contradiction; simpl; auto].
        eapply woken_Forall; [exact Hw| |eapply Forall_impl; [|exact JP]].
        * intros [] Ha Hx; auto.
        * intros x Hx. destruct x; simpl in *; auto.
      + assert (JH' : forall t0 op0 r0, In (EDone t0 op0 r0) (hist c) -> hdone s' op0 r0).
        { intros t0 op0 r0 Hin. specialize (JH _ _ _ Hin). destruct op0, r0; simpl in *; auto. }
        destruct o; try contradiction; cbn [after snd]; auto. intros t0 op0 r0 [Hx|Hx]; [|exact (JH' _ _ _ Hx)]. injection Hx as <- <- <-. exact FJ.
    - destruct (Forall_nth_error (i_st JI) Ht).
    - constructor; cbn [sh thr hist]; auto. apply Forall_upd; auto. exact (Forall_nth_error JP Ht).
    - constructor; cbn [sh thr hist]; auto. apply Forall_upd; auto. cbn in Hk. destruct k; try discriminate. cbn in Hk. destruct (t_on_timeout k); try discriminate. injection Hk as <-. exact I.
    - constructor; cbn [sh thr hist]; auto. apply Forall_upd; auto. cbn in Hk. destruct k; try discriminate. cbn in Hk. destruct (t_on_intr k); try discriminate. injection Hk as <-. exact I.
    - constructor; cbn [sh thr hist]; auto. apply Forall_upd; auto. cbn in Hk. destruct k; try discriminate. cbn in Hk. destruct (t_on_intr k); try discriminate. injection Hk as <-. exact I.
  Qed.
  Lemma JInv_reachable n c : reachable P n (sc_new V now0) tt c -> JInv c.
  Proof.
    intros Hr. pattern c. revert c Hr. refine (reachable_inv P JInv _ _ _ _ _); [|intros c0 c1; apply JInv_step]. constructor; cbn; auto; try lia.
    - apply (SInv_reachable (n := n) (now := now0)). exists []. reflexivity.
    - apply Forall_forall; intros x Hx; apply repeat_spec in Hx; subst; exact I.
  Qed.
  End Submit.

  Lemma wait_due t ds k s e : steady = true -> is_heap (@s_lt V) (t_data s) -> kfit TWaitPull k -> k <> TkIntr -> In e (t_data s) -> (snd e <= t_now s)%Z -> exists s' x, tfr t (false, ds) k s = (s', [], ORet (tk V) scv (TGot x)).
  Proof.
    intros Hst Hh Hk Hi Hin Hd. destruct k as [op|op dl|op dl|op tp|op dl tp|]; simpl in Hk; unfold tfrag; try congruence.
    - subst op. eapply checks_gets; eauto.
    - eapply checks_gets; eauto.
    - eapply inner_gets; eauto.
    - destruct Hk as (_ & [Hk|(d & Hk)]); discriminate.
    - eapply checks_gets; eauto.
  Qed.
End SC.
