(** * Left alone, a monitor always comes to rest

    If no fragment yields, and a fragment that goes to sleep makes no
    notification, then from any configuration every sequence of [LRun] steps (no
    new calls, no spurious wake-up, no time-out, no interruption) is finite, and it
    can only stop in a quiescent configuration (or in undefined behaviour).
    So a statement "in every quiescent configuration ..." is a statement about
    where every execution ends up, not about configurations that may never occur. *)

From Verif Require Import MonitorLemmas.
Set Implicit Arguments.

Section Settle.
  Variables S K Op R C L E : Type.
  Variable P : prog S K Op R C L E.
  Notation tst := (tstat K Op C L).
  Notation conf := (cfg S K Op R C L).

  (** One step of some thread that is not asleep. *)
  Definition run_step (c' c : conf) : Prop := exists t ps e, step P c (LRun Op t ps e) = Some c'.

  Definition direct : Prop :=
    forall t e k s s' ns o, frag P t e k s = (s', ns, o) ->
      match o with OYield _ _ _ => False | OSleep _ _ _ => ns = [] | _ => True end.

  Definition active (x : tst) : nat :=
    match x with Ready _ _ _ _ | Asleep _ _ _ _ => 1 | _ => 0 end.
  Definition tails (x : tst) : nat := match x with Tail _ _ _ ns => length ns | _ => 0 end.
  Definition ready (x : tst) : nat := match x with Ready _ _ _ _ => 1 | _ => 0 end.

  Definition lex3 (a b : nat * (nat * nat)) : Prop :=
    let '(a1, (a2, a3)) := a in let '(b1, (b2, b3)) := b in
    a1 < b1 \/ a1 = b1 /\ (a2 < b2 \/ a2 = b2 /\ a3 < b3).

  Lemma lex3_wf : well_founded lex3.
  Proof.
    assert (G : forall x y z, Acc lex3 (x, (y, z))).
    { induction x as [x IHx] using (well_founded_induction lt_wf).
      induction y as [y IHy] using (well_founded_induction lt_wf).
      induction z as [z IHz] using (well_founded_induction lt_wf).
      constructor. intros [x' [y' z']] [H|[-> [H|[-> H]]]]; auto. }
    intros [x [y z]]. apply G.
  Qed.

  Definition measure (c : conf) : nat * (nat * nat) :=
    (sumw active (thr c), (sumw tails (thr c), sumw ready (thr c))).

  Lemma run_step_decreases : direct -> forall c c', run_step c' c -> lex3 (measure c') (measure c).
  Proof.
    intros Hdir c c' (t & ps & e & Hs). simpl in Hs.
    destruct (nth_error (thr c) t) as [[l|l op k|l op cv k|l ns|]|] eqn:Ht; try discriminate.
    - destruct (frag P t e k (sh c)) as [[s' ns] o] eqn:Hf.
      destruct (deliver_all P ns ps (thr c)) as [thr'|] eqn:Hd; [|discriminate].
      pose proof (deliver_all_woken Hd) as Hw.
      assert (Ht' : nth_error thr' t = Some (Ready C l op k))
        by (eapply woken_not_asleep; eauto).
      assert (EA : sumw active thr' = sumw active (thr c))
        by (apply woken_sumw_eq; auto; intros []; simpl; auto).
      specialize (Hdir _ _ _ _ _ _ _ Hf). unfold measure.
      destruct o as [r|r ns'|cv k'|k'|]; simpl in Hs; try (injection Hs as <-); simpl.
      + pose proof (sumw_upd active (Idle K Op C (next P l op r)) Ht'). simpl in *. lia.
      + pose proof (sumw_upd active (finish K Op (C:=C) (next P l op r) ns') Ht').
        destruct ns'; simpl in *; lia.
      + subst ns. simpl in Hd. injection Hd as <-.
        pose proof (sumw_upd active (Asleep l op cv k') Ht).
        pose proof (sumw_upd tails (Asleep l op cv k') Ht).
        pose proof (sumw_upd ready (Asleep l op cv k') Ht). simpl in *. lia.
      + contradiction.
      + pose proof (sumw_upd active (Crashed K Op C L) Ht'). simpl in *. lia.
    - destruct ns as [|n ns]; [discriminate|].
      destruct (deliver P n (hd 0 ps) (thr c)) as [thr'|] eqn:Hd; [|discriminate].
      injection Hs as <-. pose proof (deliver_woken Hd) as Hw.
      assert (Ht' : nth_error thr' t = Some (Tail K Op l (n :: ns)))
        by (eapply woken_not_asleep; eauto).
      assert (EA : sumw active thr' = sumw active (thr c))
        by (apply woken_sumw_eq; auto; intros []; simpl; auto).
      assert (ET : sumw tails thr' = sumw tails (thr c))
        by (apply woken_sumw_eq; auto; intros []; simpl; auto).
      pose proof (sumw_upd active (finish K Op (C:=C) l ns) Ht').
      pose proof (sumw_upd tails (finish K Op (C:=C) l ns) Ht').
      unfold measure; simpl. destruct ns; simpl in *; lia.
  Qed.

  (** Every sequence of steps of running threads is finite. *)
  Theorem running_terminates : direct -> forall c, Acc run_step c.
  Proof.
    intros Hdir c. remember (measure c) as m eqn:Hm. revert c Hm.
    induction m as [m IH] using (well_founded_induction lex3_wf).
    intros c ->. constructor. intros c' Hs. eapply IH; [|reflexivity].
    apply run_step_decreases; auto.
  Qed.

  Lemma deliver_total n l : exists p l', deliver P n p l = Some l'.
  Proof.
    destruct n as [c|c]; simpl; [|exists 0; eauto].
    destruct (existsb (asleep_on P c) l) eqn:He; [|exists 0; eauto].
    apply existsb_exists in He as (x & Hin & Hx). apply In_nth_error in Hin as [p Hp].
    exists p. rewrite Hp, Hx. eauto.
  Qed.

  Lemma deliver_all_total ns l : exists ps l', deliver_all P ns ps l = Some l'.
  Proof.
    revert l; induction ns as [|n ns IH]; intros l; simpl.
    - exists []; eauto.
    - destruct (deliver_total n l) as (p & l1 & H1). destruct (IH l1) as (ps & l2 & H2).
      exists (p :: ps), l2. simpl. rewrite H1. auto.
  Qed.

  (** The scheduler can always let a running thread make its next step, whatever
      the environment input. *)
  Theorem running_progress (e : E) c :
    ~ quiescent c -> ~ In (Crashed K Op C L) (thr c) ->
    (forall l, ~ In (Tail K Op l []) (thr c)) -> exists c', run_step c' c.
  Proof.
    intros Hq Hc Ht. unfold quiescent in Hq.
    assert (exists t x, nth_error (thr c) t = Some x /\ settled x = false) as (t & x & Hx & Hs).
    { clear Hc Ht. induction (thr c) as [|y ys IH]; simpl in *; [congruence|].
      destruct (settled y) eqn:Hy.
      - destruct IH as (t & x & H1 & H2); auto. exists (Datatypes.S t), x; auto.
      - exists 0, y; auto. }
    destruct x as [l|l op k|l op cv k|l ns|]; try discriminate.
    - destruct (frag P t e k (sh c)) as [[s' ns] o] eqn:Hf.
      destruct (deliver_all_total ns (thr c)) as (ps & thr' & Hd).
      destruct (after P t l op o (hist c)) as [x h] eqn:Ha.
      exists (MkCfg s' (upd thr' t x) h). exists t, ps, e. simpl. rewrite Hx, Hf, Hd, Ha. auto.
    - destruct ns as [|n ns].
      + exfalso. apply (Ht l). eapply nth_error_In; eauto.
      + destruct (deliver_total n (thr c)) as (p & thr' & Hd).
        exists (MkCfg (sh c) (upd thr' t (finish K Op l ns)) (hist c)). exists t, [p], e. simpl.
        rewrite Hx. simpl. rewrite Hd. auto.
    - exfalso. apply Hc. eapply nth_error_In; eauto.
  Qed.

  (** No thread is ever in an empty tail. *)
  Lemma no_empty_tail n s0 l0 c :
    reachable P n s0 l0 c -> forall l, ~ In (Tail K Op l []) (thr c).
  Proof.
    assert (G : reachable P n s0 l0 c ->
      Forall (fun x => match x with Tail _ _ _ [] => False | _ => True end) (thr c)).
    { apply reachable_inv with (Inv := fun c => Forall (fun x : tst => match x with Tail _ _ _ [] => False | _ => True end) (thr c)).
      - apply Forall_forall. intros x Hx. apply repeat_spec in Hx. subst x. exact I.
      - intros c0 c1 H Hs. destruct Hs as
          [t l op Ht Hp ->|t ps e l op k s' ns o thr' Ht Hfr Hd ->|t p l n0 ns thr' Ht Hd ->
          |t l op cv k Ht ->|t l op cv k k' Ht Hk ->|t l op cv k k' Ht Hk ->|t l op k k' Ht Hk ->];
        simpl; apply Forall_upd; auto.
        + eapply woken_Forall; [eapply deliver_all_woken; eauto| |auto]. intros []; simpl; auto.
        + destruct o as [r|r [|? ?]| | |]; simpl; auto.
        + eapply woken_Forall; [eapply deliver_woken; eauto| |auto]. intros []; simpl; auto.
        + destruct ns; simpl; auto. }
    intros Hr l Hin. specialize (G Hr). rewrite Forall_forall in G. apply (G _ Hin).
  Qed.

  (** Together: from any reachable configuration the running threads can be
      scheduled to a quiescent configuration, if undefined behaviour is
      unreachable. *)
  Theorem settles n s0 l0 (e : E) :
    direct -> (forall c, reachable P n s0 l0 c -> ~ In (Crashed K Op C L) (thr c)) ->
    forall c, reachable P n s0 l0 c ->
    exists ls c', run P c ls = Some c' /\ quiescent c' /\
      Forall (fun lb => match lb with LRun _ _ _ _ => True | _ => False end) ls.
  Proof.
    intros Hdir Hnc c. induction (running_terminates Hdir c) as [c _ IH]. intros Hr.
    destruct (forallb (@settled K Op C L) (thr c)) eqn:Hq.
    - exists [], c. repeat split; auto.
    - assert (exists c', run_step c' c) as [c' Hs].
      { apply (running_progress e); auto.
        - unfold quiescent. congruence.
        - eapply no_empty_tail; eauto. }
      destruct Hs as (t & ps & e' & Hs).
      destruct (IH c') as (ls & c2 & H1 & H2 & H3).
      + exists t, ps, e'; auto.
      + eapply reachable_step; eauto.
      + exists (LRun Op t ps e' :: ls), c2. cbn [run]. rewrite Hs. repeat split; auto.
  Qed.
End Settle.
