(** * sync_bounded_queue: wake-ups *)

From Verif Require Import MonitorLemmas BQ_Model BQ_Spec BQ_Proofs.
Set Implicit Arguments.

Ltac fin := intros;
  repeat match goal with H : _ /\ _ |- _ => destruct H end;
  repeat split; intros; try congruence;
  repeat match goal with
  | H : ?b = ?c :> bool -> _, H' : ?b = ?c |- _ => specialize (H H')
  | H : ?b = ?b :> bool -> _ |- _ => specialize (H eq_refl)
  end; first [lia | match goal with H : (?p < ?q) -> _ |- _ => specialize (H ltac:(lia)); lia end].

Section BQ.
  Variable V : Type.
  Notation bq := (bq V). Notation bop := (bop V). Notation bres := (bres V). Notation bk := (bk V).
  Notation tst := (tstat bk bop bcv unit).
  Notation conf := (cfg bq bk bop bres bcv unit).
  Implicit Types (s : bq).

  (** ** Wake-ups *)

  Definition slE (x : tst) : nat := match x with Asleep _ _ NotEmpty _ => 1 | _ => 0 end.
  Definition slF (x : tst) : nat := match x with Asleep _ _ NotFull _ => 1 | _ => 0 end.
  Definition rdE (x : tst) : nat := match x with Ready _ _ _ k => if wants_pull k then 1 else 0 | _ => 0 end.
  Definition rdF (x : tst) : nat := match x with Ready _ _ _ k => if wants_push k then 1 else 0 | _ => 0 end.
  Definition rdI (x : tst) : nat := match x with Ready _ _ _ KIntr => 1 | _ => 0 end.
  Definition n1E (n : notif bcv) : nat := match n with NOne NotEmpty => 1 | _ => 0 end.
  Definition n1F (n : notif bcv) : nat := match n with NOne NotFull => 1 | _ => 0 end.
  Definition naE (n : notif bcv) : nat := match n with NAll NotEmpty => 1 | _ => 0 end.
  Definition naF (n : notif bcv) : nat := match n with NAll NotFull => 1 | _ => 0 end.
  Definition tl (f : notif bcv -> nat) (x : tst) : nat := match x with Tail _ _ _ ns => sumw f ns | _ => 0 end.

  Definition live (max : nat) (c : conf) : Prop :=
    let S w := sumw w (thr c) in
    S slE <= waiting_empty (sh c) + S (tl n1E) /\
    S slF <= waiting_full (sh c) + S (tl n1F) /\
    (q_closed (sh c) = false -> S (tl n1E) < S slE ->
       length (stored (sh c)) <= S rdE + S (tl n1E) + (S rdI + interrupted (hist c))) /\
    (q_closed (sh c) = false -> S (tl n1F) < S slF ->
       max <= length (stored (sh c)) + S rdF + S (tl n1F) + (S rdI + interrupted (hist c))) /\
    (q_closed (sh c) = true -> 0 < S slE -> 0 < S (tl naE)) /\
    (q_closed (sh c) = true -> 0 < S slF -> 0 < S (tl naF)).

  Lemma tl_finish f l ns : tl f (finish bk bop l ns) = sumw f ns.
  Proof. destruct ns; reflexivity. Qed.
  Lemma slE_finish l ns : slE (finish bk bop l ns) = 0.
  Proof. destruct ns; reflexivity. Qed.
  Lemma slF_finish l ns : slF (finish bk bop l ns) = 0.
  Proof. destruct ns; reflexivity. Qed.
  Lemma rdE_finish l ns : rdE (finish bk bop l ns) = 0.
  Proof. destruct ns; reflexivity. Qed.
  Lemma rdI_finish l ns : rdI (finish bk bop l ns) = 0.
  Proof. destruct ns; reflexivity. Qed.
  Lemma rdF_finish l ns : rdF (finish bk bop l ns) = 0.
  Proof. destruct ns; reflexivity. Qed.

  Ltac weigh Ht y :=
    pose proof (sumw_upd slE y Ht); pose proof (sumw_upd slF y Ht);
    pose proof (sumw_upd rdE y Ht); pose proof (sumw_upd rdF y Ht);
    pose proof (sumw_upd rdI y Ht);
    pose proof (sumw_upd (tl n1E) y Ht); pose proof (sumw_upd (tl n1F) y Ht);
    pose proof (sumw_upd (tl naE) y Ht); pose proof (sumw_upd (tl naF) y Ht);
    rewrite ?tl_finish, ?slE_finish, ?slF_finish, ?rdE_finish, ?rdF_finish, ?rdI_finish in *.

  Lemma live_wake max s thr0 h t l op cv k :
    Forall (@tfit V) thr0 -> nth_error thr0 t = Some (Asleep l op cv k) ->
    live max (MkCfg s thr0 h) -> live max (MkCfg s (upd thr0 t (Ready bcv l op k)) h).
  Proof.
    intros Hf Ht. pose proof (Forall_nth_error Hf Ht) as Hk. simpl in Hk.
    destruct Hk as [_ Hk]. weigh Ht (Ready bcv l op k).
    unfold live; simpl. destruct k as [op'|st|x st|]; try tauto; subst cv; simpl in *; fin.
  Qed.

  Lemma live_step max b (c c' : conf) :
    safe max c -> live max c -> stepcase (bprog V b) c c' -> live max c'.
  Proof.
    intros (Hwf & Hh & Hf) Hl Hs. destruct Hs as
      [t l op Ht Hp ->|t ps e l op k s' ns o thr' Ht Hfr Hd ->|t p l n ns thr' Ht Hd ->
      |t l op cv k Ht ->|t l op cv k k' Ht Hk ->|t l op cv k k' Ht Hk ->|t l op k k' Ht Hk ->].
    - unfold live in *; simpl. weigh Ht (Ready bcv l op (KGo op)). simpl in *.
      destruct op; simpl in *; fin.
    - assert (Hk : kfit op k) by (apply (Forall_nth_error Hf Ht)).
      pose proof (stored_bound Hwf) as Hbd.
      destruct (@bfrag_case V max op k (sh c) s' ns o t e Hwf Hk Hfr) as (-> & Hwf' & Hc).
      pose proof (stored_bound Hwf') as Hbd'.
      simpl in Hd. injection Hd as <-. unfold live in *.
      assert (HrI : rdI (Ready bcv l op k) = 0 \/ exists r, o = ORet bk bcv r).
      { destruct k; simpl; auto. right. simpl in Hfr. unfold ret in Hfr. inversion Hfr. eauto. }
      destruct Hc as [r Ho Hs Hst Hri Hc1 Hc2|r x ns Ho Hst Hc1 Hc2 Hss Hir Hw1 Hwf1 Hns
        |v ns Ho Hst Hss Hc1 Hw1 Hwe1 Hns|Ho Hst Hss Hc1 Hw1 Hw2 Hwe Hwfu
        |st Ho Hkf Hs1 Hs2 Hc1 Hc2 Hw1 Hw2 Hwe Hwfu|x st Ho Hkf Hs1 Hs2 Hc1 Hc2 Hw1 Hw2 Hwe Hwfu];
        subst o; simpl;
        (destruct HrI as [HrI|[r0 HrI]]; [simpl in HrI; try rewrite HrI in *|try discriminate]).
      2:clear HrI.
      1-2: subst s'; weigh Ht (Idle bk bop bcv l);
        simpl in *; rewrite Hri;
        destruct k; simpl in *;
          destruct (q_closed (sh c)) eqn:Hcl;
          try (destruct op0; simpl in *);
          try (specialize (Hc1 eq_refl)); try (specialize (Hc2 eq_refl)); try discriminate;
          fin.
      + weigh Ht (finish bk bop l ns). simpl rdI in *; rewrite HrI in *. assert (length (stored s') = S (length (stored (sh c)))).
        { rewrite Hss, app_length; simpl; lia. }
        simpl in *. rewrite Hw1, Hc1, Hc2, Hir in *.
        destruct Hns as [[-> Hwe]|(-> & Hwe1 & Hwe2)]; simpl in *; destruct (wants_push k); fin.
      + weigh Ht (finish bk bop l ns). simpl rdI in *; rewrite HrI in *. assert (length (stored (sh c)) = S (length (stored s'))).
        { rewrite Hss; simpl; lia. }
        simpl in *. rewrite Hw1, Hc1 in *.
        destruct Hns as [[-> Hwe]|(-> & Hwe2 & Hwe3)]; simpl in *; destruct (wants_pull k); fin.
      + weigh Ht (finish bk bop l [NAll NotEmpty; NAll NotFull]). simpl rdI in *; rewrite HrI in *.
        simpl in *. rewrite Hw1, Hw2, Hc1 in *. fin.
      + weigh Ht (Asleep l op NotEmpty (@KLoopE V st)). simpl rdI in *; rewrite HrI in *.
        simpl in *. rewrite Hw1, Hw2, Hc1, Hc2, Hs1, Hs2 in *. simpl in *. fin.
      + weigh Ht (Asleep l op NotFull (KLoopF x st)). simpl rdI in *; rewrite HrI in *.
        simpl in *. rewrite Hw1, Hw2, Hc1, Hc2, Hs2 in *. simpl in *. fin.
    - (* a notification made after unlocking *)
      assert (Ht' : nth_error thr' t = Some (Tail bk bop l (n :: ns))).
      { eapply woken_not_asleep; [eapply deliver_woken; eauto|eauto|reflexivity]. }
      weigh Ht' (finish bk bop l ns). unfold live in *. simpl sh; simpl thr.
      destruct n as [cv|cv].
      + destruct (deliver_one_sumw slE Hd) as [[-> Hno]|(x & Hx & Has & -> & _)].
        * destruct cv.
          -- assert (sumw slE (thr c) = 0).
             { apply sumw_zero. intros x Hx. specialize (Hno _ Hx). destruct x as [| |? ? [] ?| |]; simpl in *; auto; discriminate. }
             simpl in *. fin.
          -- assert (sumw slF (thr c) = 0).
             { apply sumw_zero. intros x Hx. specialize (Hno _ Hx). destruct x as [| |? ? [] ?| |]; simpl in *; auto; discriminate. }
             simpl in *. fin.
        * destruct x as [| |l' op' cv' k'| |]; try discriminate. simpl in Has.
          pose proof (Forall_nth_error Hf Hx) as [_ Hkk]. simpl wake in *.
          pose proof (sumw_upd slE (Ready bcv l' op' k') Hx); pose proof (sumw_upd slF (Ready bcv l' op' k') Hx);
          pose proof (sumw_upd rdE (Ready bcv l' op' k') Hx); pose proof (sumw_upd rdF (Ready bcv l' op' k') Hx);
          pose proof (sumw_upd rdI (Ready bcv l' op' k') Hx);
          pose proof (sumw_upd (tl n1E) (Ready bcv l' op' k') Hx); pose proof (sumw_upd (tl n1F) (Ready bcv l' op' k') Hx);
          pose proof (sumw_upd (tl naE) (Ready bcv l' op' k') Hx); pose proof (sumw_upd (tl naF) (Ready bcv l' op' k') Hx).
          destruct cv, cv'; try discriminate; destruct k'; try tauto; try discriminate;
            simpl in *; fin.
      + assert (EQ : forall w : tst -> nat, (forall y, is_asleep y = true -> w (wake y) = w y) -> sumw w thr' = sumw w (thr c)).
        { intros w Hw. eapply woken_sumw_eq; [eapply deliver_woken; eauto|auto]. }
        assert (ET : forall f, sumw (tl f) thr' = sumw (tl f) (thr c)).
        { intros f. apply EQ. intros [] ; simpl; auto. }
        assert (LE : forall w : tst -> nat, (forall y, is_asleep y = true -> w (wake y) <= w y) -> sumw w thr' <= sumw w (thr c)).
        { intros w Hw. eapply woken_sumw_le; [eapply deliver_woken; eauto|auto]. }
        assert (LE1 : sumw slE thr' <= sumw slE (thr c)) by (apply LE; intros []; simpl; auto; lia).
        assert (LE2 : sumw slF thr' <= sumw slF (thr c)) by (apply LE; intros []; simpl; auto; lia).
        assert (TOT : sumw (fun x => slE x + rdE x) thr' = sumw (fun x => slE x + rdE x) (thr c) /\
                      sumw (fun x => slF x + rdF x) thr' = sumw (fun x => slF x + rdF x) (thr c)).
        { (* on well-formed threads, waking moves a sleeper into the ready count *)
          simpl in Hd. injection Hd as <-. rewrite !sumw_map. split; apply sumw_ext; intros x Hx;
          rewrite Forall_forall in Hf; specialize (Hf _ Hx); unfold wake_if, asleep_on;
          destruct x as [| |? ? c0 k0| |]; simpl; auto; destruct Hf as [_ Hf];
          destruct cv, c0; simpl; auto; destruct k0; simpl; auto; try tauto; discriminate. }
        rewrite !sumw_plus in TOT. destruct TOT as [TOT1 TOT2].
        rewrite !ET in *.
        assert (LEI : sumw rdI thr' = sumw rdI (thr c)).
        { simpl in Hd. injection Hd as <-. rewrite sumw_map. apply sumw_ext; intros x Hx;
          rewrite Forall_forall in Hf; specialize (Hf _ Hx); unfold wake_if, asleep_on;
          destruct x as [| |? ? c0 k0| |]; simpl; auto; destruct Hf as [_ Hf];
          destruct cv, c0; simpl; auto; destruct k0; simpl; auto; try tauto; discriminate. }
        assert (Z : match cv with NotEmpty => sumw slE thr' = 0 | NotFull => sumw slF thr' = 0 end).
        { simpl in Hd. injection Hd as <-. destruct cv; rewrite sumw_map; apply sumw_zero;
            intros [| |? ? [] ?| |] _; reflexivity. }
        destruct cv; simpl in *; fin.
    - apply live_wake with (cv:=cv); auto.
    - discriminate.
    - unfold live in *; simpl in *. destruct b; [|discriminate].
      pose proof (Forall_nth_error Hf Ht) as [_ Hkk]. weigh Ht (Ready bcv l op k').
      destruct k as [op'|st|x st|]; try discriminate; injection Hk as <-; subst cv; simpl in *; fin.
    - unfold live in *; simpl in *. destruct b; [|discriminate].
      weigh Ht (Ready bcv l op k').
      destruct k as [op'|st|x st|]; try discriminate; injection Hk as <-; simpl in *; fin.
  Qed.

  Lemma live_reachable max d b n c :
    1 <= max -> reachable (bprog V b) n (bq_new d max) tt c -> safe max c /\ live max c.
  Proof.
    intros Hm. apply reachable_inv with (Inv := fun c => safe max c /\ live max c).
    - split.
      + apply (safe_reachable (b:=b) (d:=d) Hm (n:=n)). apply reachable_init.
      + unfold live, init; simpl. rewrite !sumw_repeat. simpl. repeat split; intros; lia.
    - intros c0 c1 [Hs Hl] Hst. split; [eapply safe_step; eauto|eapply live_step; eauto].
  Qed.

  Lemma blocked_gen max d b n c t l op cv k :
    1 <= max -> reachable (bprog V b) n (bq_new d max) tt c -> quiescent c ->
    nth_error (thr c) t = Some (Asleep l op cv k) ->
    q_closed (sh c) = false /\
    match op with
    | BPull | BWaitPullFront => length (stored (sh c)) <= interrupted (hist c)
    | BPush _ | BWaitPushBack _ => max <= length (stored (sh c)) + interrupted (hist c)
    | _ => False
    end.
  Proof.
    intros Hm Hr Hq Ht. destruct (live_reachable Hm Hr) as [(Hwf & Hh & Hf) Hl].
    pose proof (Forall_nth_error Hf Ht) as [Hk1 Hk2].
    assert (Z : forall w : tst -> nat, (forall l, w (Idle bk bop bcv l) = 0) ->
            (forall l op cv k, w (Asleep l op cv k) = 0) -> sumw w (thr c) = 0).
    { intros; apply quiescent_sumw; auto. }
    pose proof (Z rdE ltac:(reflexivity) ltac:(reflexivity)) as Z1.
    pose proof (Z rdF ltac:(reflexivity) ltac:(reflexivity)) as Z2.
    pose proof (Z (tl n1E) ltac:(reflexivity) ltac:(reflexivity)) as Z3.
    pose proof (Z (tl n1F) ltac:(reflexivity) ltac:(reflexivity)) as Z4.
    pose proof (Z (tl naE) ltac:(reflexivity) ltac:(reflexivity)) as Z5.
    pose proof (Z (tl naF) ltac:(reflexivity) ltac:(reflexivity)) as Z6.
    pose proof (Z rdI ltac:(reflexivity) ltac:(reflexivity)) as Z7.
    unfold live in Hl. rewrite Z1, Z2, Z3, Z4, Z5, Z6, Z7 in Hl.
    destruct Hl as (L1 & L2 & L3 & L4 & L5 & L6).
    destruct k as [op'|st|x st|]; try tauto; subst cv.
    - pose proof (sumw_ge slE Ht) as Hge. simpl in Hge.
      destruct (q_closed (sh c)) eqn:Hc; [specialize (L5 eq_refl); lia|].
      split; auto. specialize (L3 eq_refl).
      simpl in Hk1. destruct Hk1 as [[-> _]|[-> _]]; lia.
    - pose proof (sumw_ge slF Ht) as Hge. simpl in Hge.
      destruct (q_closed (sh c)) eqn:Hc; [specialize (L6 eq_refl); lia|].
      split; auto. specialize (L4 eq_refl).
      simpl in Hk1. destruct Hk1 as [[-> _]|[-> _]]; lia.
  Qed.

  (** Without interruption requests no operation is interrupted. *)
  Lemma never_interrupted max d n c :
    1 <= max -> reachable (bprog V false) n (bq_new d max) tt c ->
    Forall (fun x : tst => match x with Ready _ _ _ KIntr | Asleep _ _ _ KIntr => False | _ => True end) (thr c) /\
    interrupted (hist c) = 0.
  Proof.
    intros Hm Hr.
    assert (G : safe max c /\
      Forall (fun x : tst => match x with Ready _ _ _ KIntr | Asleep _ _ _ KIntr => False | _ => True end) (thr c) /\
      interrupted (hist c) = 0); [|tauto].
    revert Hr. apply reachable_inv with (Inv := fun c => safe max c /\
      Forall (fun x : tst => match x with Ready _ _ _ KIntr | Asleep _ _ _ KIntr => False | _ => True end) (thr c) /\
      interrupted (hist c) = 0).
    - split; [|split; [|reflexivity]].
      + apply (safe_reachable (b:=false) (d:=d) Hm (n:=n)). apply reachable_init.
      + apply Forall_forall. intros x Hx. apply repeat_spec in Hx. subst x. exact I.
    - intros c0 c1 (Hsf & Hki & Hi) Hs. split; [eapply safe_step; eauto|].
      destruct Hsf as (Hwf & Hh & Hf). destruct Hs as
      [t l op Ht Hp ->|t ps e l op k s' ns o thr' Ht Hfr Hd ->|t p l n0 ns thr' Ht Hd ->
      |t l op cv k Ht ->|t l op cv k k' Ht Hk ->|t l op cv k k' Ht Hk ->|t l op k k' Ht Hk ->]; simpl.
      + split; auto. apply Forall_upd; auto.
      + assert (Hk : kfit op k) by (apply (Forall_nth_error Hf Ht)).
        assert (Hk0 : k <> KIntr) by (pose proof (Forall_nth_error Hki Ht) as H0; intros ->; auto).
        destruct (@bfrag_case V max op k (sh c0) s' ns o t e Hwf Hk Hfr) as (-> & Hwf' & Hc).
        simpl in Hd. injection Hd as <-.
        destruct Hc as [r Ho Hs Hst Hri Hc1 Hc2|r x ns Ho Hst Hc1 Hc2 Hss Hir|v ns Ho Hst|Ho Hst|st Ho Hkf|x st Ho Hkf];
          subst o; simpl; (split; [apply Forall_upd; simpl; auto|]); auto.
        * rewrite Hri, Hi. destruct k; auto. congruence.
        * destruct ns; simpl; auto.
        * rewrite Hir; auto.
        * destruct ns; simpl; auto.
      + split; auto. apply Forall_upd; [|destruct ns; simpl; auto].
        eapply woken_Forall; [eapply deliver_woken; eauto| |auto]. intros [| |? ? ? []| |]; simpl; auto.
      + split; auto. apply Forall_upd; auto. apply (Forall_nth_error Hki Ht).
      + discriminate.
      + discriminate.
      + discriminate.
  Qed.

End BQ.

Arguments blocked_gen {V max d b n c t l op cv k} _ _ _ _.
Arguments never_interrupted {V max d n c} _ _.
