(** * Coming to rest when a fragment may notify and then sleep

    Generalises Settle.v: program points have a rank; a fragment that yields, or that makes
    notifications and then sleeps, must continue at a point of smaller rank. *)

From Verif Require Import MonitorLemmas Settle.
Set Implicit Arguments.

Section SettleR.
  Variables S K Op R C L E : Type.
  Variable P : prog S K Op R C L E.
  Variable rank : K -> nat.
  Notation tst := (tstat K Op C L).
  Notation conf := (cfg S K Op R C L).

  Definition ranked : Prop :=
    forall t e k s s' ns o, frag P t e k s = (s', ns, o) ->
      match o with
      | OYield _ _ k' => rank k' < rank k
      | OSleep _ _ k' => rank k' < rank k \/ (ns = [] /\ rank k' <= rank k)
      | _ => True
      end.

  Definition active_r (x : tst) : nat :=
    match x with Ready _ _ _ k | Asleep _ _ _ k => Datatypes.S (rank k) | _ => 0 end.

  Definition measure_r (c : conf) : nat * (nat * nat) :=
    (sumw active_r (thr c), (sumw (@tails K Op C L) (thr c), sumw (@ready K Op C L) (thr c))).

  Lemma run_step_decreases_r : ranked -> forall c c', run_step P c' c -> lex3 (measure_r c') (measure_r c).
  Proof.
    intros Hdir c c' (t & ps & e & Hs). simpl in Hs.
    destruct (nth_error (thr c) t) as [[l|l op k|l op cv k|l ns|]|] eqn:Ht; try discriminate.
    - destruct (frag P t e k (sh c)) as [[s' ns] o] eqn:Hf.
      destruct (deliver_all P ns ps (thr c)) as [thr'|] eqn:Hd; [|discriminate].
      pose proof (deliver_all_woken Hd) as Hw.
      assert (Ht' : nth_error thr' t = Some (Ready C l op k))
        by (eapply woken_not_asleep; eauto).
      assert (EA : sumw active_r thr' = sumw active_r (thr c))
        by (apply woken_sumw_eq; auto; intros []; simpl; auto).
      specialize (Hdir _ _ _ _ _ _ _ Hf). unfold measure_r.
      destruct o as [r|r ns'|cv k'|k'|]; simpl in Hs; try (injection Hs as <-); simpl.
      + pose proof (sumw_upd active_r (Idle K Op C (next P l op r)) Ht'). simpl in *. lia.
      + pose proof (sumw_upd active_r (finish K Op (C:=C) (next P l op r) ns') Ht').
        destruct ns'; simpl in *; lia.
      + destruct Hdir as [Hlt|[-> Hle]].
        * pose proof (sumw_upd active_r (Asleep l op cv k') Ht'). simpl in *. lia.
        * simpl in Hd. injection Hd as <-.
          pose proof (sumw_upd active_r (Asleep l op cv k') Ht).
          pose proof (sumw_upd (@tails K Op C L) (Asleep l op cv k') Ht).
          pose proof (sumw_upd (@ready K Op C L) (Asleep l op cv k') Ht). simpl in *. lia.
      + pose proof (sumw_upd active_r (Ready C l op k') Ht'). simpl in *. lia.
      + pose proof (sumw_upd active_r (Crashed K Op C L) Ht'). simpl in *. lia.
    - destruct ns as [|n ns]; [discriminate|].
      destruct (deliver P n (hd 0 ps) (thr c)) as [thr'|] eqn:Hd; [|discriminate].
      injection Hs as <-. pose proof (deliver_woken Hd) as Hw.
      assert (Ht' : nth_error thr' t = Some (Tail K Op l (n :: ns)))
        by (eapply woken_not_asleep; eauto).
      assert (EA : sumw active_r thr' = sumw active_r (thr c))
        by (apply woken_sumw_eq; auto; intros []; simpl; auto).
      assert (ET : sumw (@tails K Op C L) thr' = sumw (@tails K Op C L) (thr c))
        by (apply woken_sumw_eq; auto; intros []; simpl; auto).
      pose proof (sumw_upd active_r (finish K Op (C:=C) l ns) Ht').
      pose proof (sumw_upd (@tails K Op C L) (finish K Op (C:=C) l ns) Ht').
      unfold measure_r; simpl. destruct ns; simpl in *; lia.
  Qed.

  Theorem ranked_terminates : ranked -> forall c, Acc (run_step P) c.
  Proof.
    intros Hdir c. remember (measure_r c) as m eqn:Hm. revert c Hm.
    induction m as [m IH] using (well_founded_induction lex3_wf).
    intros c ->. constructor. intros c' Hs. eapply IH; [|reflexivity].
    apply run_step_decreases_r; auto.
  Qed.

  Theorem ranked_settles n s0 l0 (e : E) : ranked ->
    forall c, reachable P n s0 l0 c ->
    exists ls c', run P c ls = Some c' /\ (quiescent c' \/ In (Crashed K Op C L) (thr c')) /\
      Forall (fun lb => match lb with LRun _ _ _ _ => True | _ => False end) ls.
  Proof.
    intros Hdir c. induction (ranked_terminates Hdir c) as [c _ IH]. intros Hr.
    destruct (forallb (@settled K Op C L) (thr c)) eqn:Hq; [exists [], c; repeat split; auto|].
    destruct (existsb (fun x : tst => match x with Crashed _ _ _ _ => true | _ => false end) (thr c)) eqn:Hx.
    - exists [], c. repeat split; auto. right. apply existsb_exists in Hx as (x & Hin & Hx).
      destruct x; try discriminate; auto.
    - assert (exists c', run_step P c' c) as [c' Hs].
      { apply (running_progress P e); auto.
        - unfold quiescent. congruence.
        - intros Hin. assert (existsb (fun x : tst => match x with Crashed _ _ _ _ => true | _ => false end) (thr c) = true); [|congruence].
          apply existsb_exists. exists (Crashed K Op C L). auto.
        - eapply no_empty_tail; eauto. }
      destruct Hs as (t & ps & e' & Hs).
      destruct (IH c') as (ls & c2 & H1 & H2 & H3).
      + exists t, ps, e'; auto.
      + eapply reachable_step; eauto.
      + exists (LRun Op t ps e' :: ls), c2. cbn [run]. rewrite Hs. repeat split; auto.
  Qed.
End SettleR.
