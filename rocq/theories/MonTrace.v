(** * Histories along runs *)

From Verif Require Export MonitorLemmas Settle.
Set Implicit Arguments.

Section Trace.
  Variables S K Op R C L E : Type.
  Variable P : prog S K Op R C L E.
  Notation tst := (tstat K Op C L).
  Notation conf := (cfg S K Op R C L).

  Lemma step_hist c lb c' : step P c lb = Some c' ->
    hist c' = hist c \/ (exists t op, hist c' = ECall R t op :: hist c) \/
    (exists t op r, hist c' = EDone t op r :: hist c).
  Proof.
    intros Hs. apply step_inv in Hs. destruct Hs as
     [t l op Ht Hp ->|t ps e l op k s' ns o thr' Ht Hfr Hd ->|t p l n ns thr' Ht Hd ->
     |t l op cv k Ht ->|t l op cv k k' Ht Hk ->|t l op cv k k' Ht Hk ->|t l op k k' Ht Hk ->];
      simpl; auto; [right; left; eauto|].
    destruct o; simpl; auto; right; right; eauto.
  Qed.

  Lemma run_hist ls c c' : run P c ls = Some c' -> exists h, hist c' = h ++ hist c.
  Proof.
    revert c; induction ls as [|lb ls IH]; intros c; simpl.
    - injection 1 as <-. exists []; auto.
    - destruct (step P c lb) as [c1|] eqn:H1; [|discriminate]. intros H2.
      destruct (IH _ H2) as [h Hh].
      destruct (step_hist _ _ H1) as [H|[(t & op & H)|(t & op & r & H)]]; rewrite H in Hh.
      + exists h; auto.
      + exists (h ++ [ECall R t op]). rewrite <- app_assoc. auto.
      + exists (h ++ [EDone t op r]). rewrite <- app_assoc. auto.
  Qed.

  (** Induction along a run, last step last. *)
  Lemma run_snoc_ind c0 (Q : list (label Op E) -> conf -> Prop) :
    Q [] c0 ->
    (forall ls c lb c', run P c0 ls = Some c -> Q ls c -> step P c lb = Some c' -> Q (ls ++ [lb]) c') ->
    forall ls c, run P c0 ls = Some c -> Q ls c.
  Proof.
    intros H0 Hs ls; induction ls as [|lb ls IH] using rev_ind; intros c H.
    - simpl in H. injection H as <-. auto.
    - rewrite run_app in H. destruct (run P c0 ls) as [c1|] eqn:H1; [|discriminate].
      simpl in H. destruct (step P c1 lb) as [c2|] eqn:H2; [|discriminate]. injection H as <-.
      eapply Hs; eauto.
  Qed.

  (** Induction that also gives the reachability of the source of each step. *)
  Lemma reachable_ind' (Q : conf -> Prop) n s0 l0 :
    Q (init K Op R C n s0 l0) ->
    (forall c c', reachable P n s0 l0 c -> Q c -> stepcase P c c' -> Q c') ->
    forall c, reachable P n s0 l0 c -> Q c.
  Proof.
    intros H0 Hs c [ls Hls]. revert ls c Hls. apply run_snoc_ind; auto.
    intros ls c lb c' H1 H2 H3. eapply Hs; eauto; [exists ls; auto|eapply step_inv; eauto].
  Qed.

  (** Every event of a reachable history was produced by a step of the run. *)
  Lemma event_step n s0 l0 c h1 ev h2 :
    reachable P n s0 l0 c -> hist c = h1 ++ ev :: h2 ->
    exists c1 lb c2, reachable P n s0 l0 c1 /\ step P c1 lb = Some c2 /\
      hist c1 = h2 /\ hist c2 = ev :: h2 /\ exists ls, run P c2 ls = Some c.
  Proof.
    intros [ls Hls]. revert h1. revert ls c Hls.
    apply (@run_snoc_ind (init K Op R C n s0 l0) (fun _ c => forall h1, hist c = h1 ++ ev :: h2 ->
      exists c1 lb c2, reachable P n s0 l0 c1 /\ step P c1 lb = Some c2 /\
      hist c1 = h2 /\ hist c2 = ev :: h2 /\ exists ls, run P c2 ls = Some c)).
    - simpl. intros [|? ?]; discriminate.
    - intros ls c lb c' Hr IH Hs h1 Hh.
      assert (Hc : reachable P n s0 l0 c) by (exists ls; auto).
      assert (Hsuf : hist c' = hist c \/ exists ev', hist c' = ev' :: hist c).
      { destruct (step_hist _ _ Hs) as [H|[(t & op & H)|(t & op & r & H)]]; eauto. }
      assert (Hprev : forall h, hist c = h ++ ev :: h2 ->
        exists c1 lb c2, reachable P n s0 l0 c1 /\ step P c1 lb = Some c2 /\
          hist c1 = h2 /\ hist c2 = ev :: h2 /\ exists ls, run P c2 ls = Some c').
      { intros h H. destruct (IH h H) as (c1 & lb1 & c2 & A & B & D & F & ls2 & G).
        exists c1, lb1, c2. repeat split; auto. exists (ls2 ++ [lb]). rewrite run_app, G. simpl.
        rewrite Hs. auto. }
      destruct Hsuf as [H|[ev' H]]; rewrite H in Hh.
      + apply (Hprev h1); auto.
      + destruct h1 as [|x h1]; simpl in Hh; injection Hh as Hx Hh.
        * exists c, lb, c'. subst ev'. rewrite H, Hh. repeat split; auto. exists []; auto.
        * apply (Hprev h1); auto.
  Qed.

  (** From any configuration the running threads can be scheduled to rest, or to
      undefined behaviour. *)
  Theorem settles_or_crashes n s0 l0 (e : E) : direct P ->
    forall c, reachable P n s0 l0 c ->
    exists ls c', run P c ls = Some c' /\ (quiescent c' \/ In (Crashed K Op C L) (thr c')) /\
      Forall (fun lb => match lb with LRun _ _ _ _ => True | _ => False end) ls.
  Proof.
    intros Hdir c. induction (running_terminates Hdir c) as [c _ IH]. intros Hr.
    destruct (forallb (@settled K Op C L) (thr c)) eqn:Hq; [exists [], c; repeat split; auto|].
    destruct (existsb (fun x : tst => match x with Crashed _ _ _ _ => true | _ => false end) (thr c)) eqn:Hx.
    - exists [], c. repeat split; auto. right. apply existsb_exists in Hx as (x & Hin & Hx).
      destruct x; try discriminate; auto.
    - assert (exists c', run_step P c' c) as [c' Hs].
      { apply (running_progress P e); auto.
        - unfold quiescent. congruence.
        - intros Hin. assert (existsb (fun x : tst => match x with Crashed _ _ _ _ => true | _ => false end) (thr c) = true); [|congruence].
          apply existsb_exists. exists (Crashed K Op C L). auto.
        - eapply no_empty_tail; eauto. }
      destruct Hs as (t & ps & e' & Hs).
      destruct (IH c') as (ls & c2 & H1 & H2 & H3).
      + exists t, ps, e'; auto.
      + eapply reachable_step; eauto.
      + exists (LRun Op t ps e' :: ls), c2. cbn [run]. rewrite Hs. repeat split; auto.
  Qed.
End Trace.

Arguments run_hist {S K Op R C L E} P ls {c c'} _.
Arguments event_step {S K Op R C L E} P {n s0 l0 c} h1 ev h2 _ _.
