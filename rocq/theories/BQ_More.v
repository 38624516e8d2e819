(** * sync_bounded_queue: results of single operations, size(), examples *)

From Verif Require Import MonitorLemmas Settle BQ_Model BQ_Spec BQ_Proofs BQ_Live.
Set Implicit Arguments.

Section BQ.
  Variable V : Type.
  Notation bq := (bq V). Notation bop := (bop V). Notation bres := (bres V). Notation bk := (bk V).
  Notation tst := (tstat bk bop bcv unit).
  Notation conf := (cfg bq bk bop bres bcv unit).
  Implicit Types (s : bq).

  Lemma bq_no_crash max d b n (c : conf) :
    1 <= max -> reachable (bprog V b) n (bq_new d max) tt c -> ~ In (Crashed bk bop bcv unit) (thr c).
  Proof.
    intros Hm Hr Hin. destruct (safe_reachable Hm Hr) as (_ & _ & Hf).
    rewrite Forall_forall in Hf. apply (Hf _ Hin).
  Qed.

  Lemma bq_direct b : direct (bprog V b).
  Proof.
    intros t e k s s' ns o H. simpl in H.
    assert (Hp : pull_front s = (s', ns, o) -> match o with OYield _ _ _ => False | OSleep _ _ _ => ns = [] | _ => True end).
    { intros Hp. unfold pull_front in Hp. destruct (nth_error (data s) (q_out s)).
      - unfold notify_not_full_if_needed in Hp. simpl in Hp. destruct (0 <? waiting_full s); (inversion Hp; subst; clear Hp); auto.
      - (inversion Hp; subst; clear Hp); auto. }
    assert (Hpa : forall x i r, push_at s x i r = (s', ns, o) -> match o with OYield _ _ _ => False | OSleep _ _ _ => ns = [] | _ => True end).
    { intros x i r Hq. unfold push_at in Hq. destruct (q_in s <? length (data s)).
      - unfold notify_not_empty_if_needed in Hq. simpl in Hq. destruct (0 <? waiting_empty s); (inversion Hq; subst; clear Hq); auto.
      - (inversion Hq; subst; clear Hq); auto. }
    assert (Hle : forall st, loop_not_empty s st = (s', ns, o) -> match o with OYield _ _ _ => False | OSleep _ _ _ => ns = [] | _ => True end).
    { intros st Hq. unfold loop_not_empty in Hq. destruct (negb (q_out s =? q_in s)); [exact (Hp Hq)|].
      destruct (q_closed s); (inversion Hq; subst; clear Hq); auto. }
    assert (Hlf : forall x st, loop_not_full s x st = (s', ns, o) -> match o with OYield _ _ _ => False | OSleep _ _ _ => ns = [] | _ => True end).
    { intros x st Hq. unfold loop_not_full in Hq. destruct (q_closed s); [(inversion Hq; subst; clear Hq); auto|].
      destruct (negb (inc s (q_in s) =? q_out s)); [exact (Hpa _ _ _ Hq)|]. (inversion Hq; subst; clear Hq); auto. }
    assert (Hr : forall r, ret s r = (s', ns, o) -> match o with OYield _ _ _ => False | OSleep _ _ _ => ns = [] | _ => True end).
    { intros r Hq. (inversion Hq; subst; clear Hq); auto. }
    destruct k as [op|st|x st|]; simpl in H; [|exact (Hle _ H)|exact (Hlf _ _ H)|exact (Hr _ H)].
    destruct op; simpl in H;
      unfold try_push, try_push_back, wait_push_back, try_pull, try_pull_front, wait_pull_front in H;
      repeat match goal with
      | H : (if ?b then _ else _) = _ |- _ => destruct b
      end;
      first [exact (Hp H)|exact (Hr _ H)|exact (Hle _ H)|exact (Hlf _ _ H)|exact (Hpa _ _ _ H)
            |unfold close in H; inversion H; subst; clear H; auto].
  Qed.

  (** A step that completes an operation is a step of the abstract queue. *)
  Lemma done_step max d b n (c c' : conf) lb t op r :
    1 <= max -> reachable (bprog V b) n (bq_new d max) tt c ->
    step (bprog V b) c lb = Some c' -> hist c' = EDone t op r :: hist c ->
    fifo_step max (abs (sh c)) op r (abs (sh c')).
  Proof.
    intros Hm Hr Hs Hh. destruct (safe_reachable Hm Hr) as (Hwf & Hhist & Hf).
    apply step_inv in Hs. destruct Hs as
      [t' l op' Ht Hp ->|t' ps e l op' k s' ns o thr' Ht Hfr Hd ->|t' p l n0 ns thr' Ht Hd ->
      |t' l op' cv k Ht ->|t' l op' cv k k' Ht Hk ->|t' l op' cv k k' Ht Hk ->|t' l op' k k' Ht Hk ->]; simpl in Hh;
      try discriminate; try (exfalso; apply (f_equal (@length _)) in Hh; simpl in Hh; lia).
    assert (Hk : kfit op' k) by (apply (Forall_nth_error Hf Ht)).
    destruct (@bfrag_case V max op' k (sh c) s' ns o t' e Hwf Hk Hfr) as (-> & Hwf' & Hc).
    destruct Hc as [r' Ho Hs' Hst|r' x ns Ho Hst|v ns Ho Hst|Ho Hst|st Ho Hkf|x st Ho Hkf]; subst o; simpl in Hh;
      try (exfalso; apply (f_equal (@length _)) in Hh; simpl in Hh; lia);
      injection Hh as -> -> <-; simpl; auto. subst s'; auto.
  Qed.

  (** ** size() *)

  Lemma size_value max s : wf max s ->
    b_size s = if (q_in s <? q_out s) && negb (b_full s) then length (stored s) - 1
               else length (stored s).
  Proof.
    intros Hwf. rewrite (stored_length Hwf). pose proof Hwf as (H1 & H2 & H3 & H4 & H5).
    unfold b_size, b_full, b_capacity. rewrite ring_count_eq, inc_nxt by auto.
    destruct (Nat.eqb_spec (nxt s (q_in s)) (q_out s)) as [He|He]; unfold nxt, ring_next in He.
    - rewrite andb_false_r.
      destruct (Nat.eqb_spec (S (q_in s)) (cap s)); destruct (Nat.leb_spec (q_out s) (q_in s)); lia.
    - rewrite andb_true_r. destruct (Nat.leb_spec (q_out s) (q_in s)) as [Hle|Hle].
      + destruct (Nat.ltb_spec (q_in s) (q_out s)); [lia|].
        replace (q_in s + (cap s - 1) - q_out s) with ((q_in s - q_out s) + 1 * (cap s - 1)) by lia.
        rewrite Nat.mod_add by lia. apply Nat.mod_small.
        destruct (Nat.eqb_spec (S (q_in s)) (cap s)); lia.
      + destruct (Nat.ltb_spec (q_in s) (q_out s)); [|lia].
        rewrite Nat.mod_small; [lia|].
        destruct (Nat.eqb_spec (S (q_in s)) (cap s)); lia.
  Qed.

  (** Where the indices are, in terms of how many elements went in and out. *)
  Lemma indices max d b n (c : conf) :
    1 <= max -> reachable (bprog V b) n (bq_new d max) tt c ->
    q_in (sh c) = length (accepted (hist c)) mod (max + 1) /\
    q_out (sh c) = length (delivered (hist c)) mod (max + 1).
  Proof.
    intros Hm Hr.
    assert (G : safe max c /\ q_in (sh c) = length (accepted (hist c)) mod (max + 1) /\
      q_out (sh c) = length (delivered (hist c)) mod (max + 1)); [|tauto].
    revert Hr. apply reachable_inv with (Inv := fun c : conf => safe max c /\ q_in (sh c) = length (accepted (hist c)) mod (max + 1) /\
      q_out (sh c) = length (delivered (hist c)) mod (max + 1)).
    - split; [apply (safe_reachable (b:=b) (d:=d) Hm (n:=n)); apply reachable_init|].
      simpl. rewrite Nat.mod_0_l by lia. auto.
    - intros c0 c1 (Hsf & H1 & H2) Hs. split; [eapply safe_step; eauto|].
      destruct Hsf as (Hwf & Hh & Hf). destruct Hs as
      [t l op Ht Hp ->|t ps e l op k s' ns o thr' Ht Hfr Hd ->|t p l n0 ns thr' Ht Hd ->
      |t l op cv k Ht ->|t l op cv k k' Ht Hk ->|t l op cv k k' Ht Hk ->|t l op k k' Ht Hk ->]; simpl; auto.
      pose proof Hwf as (Hm' & Hcap & _).
      assert (Hk : kfit op k) by (apply (Forall_nth_error Hf Ht)).
      assert (Hs1 : forall i, inc (sh c0) i = (i + 1) mod (max + 1)) by (intros; unfold inc; rewrite Hcap; auto).
      assert (Hmod : forall a, (a mod (max + 1) + 1) mod (max + 1) = (a + 1) mod (max + 1)).
      { intros a. rewrite Nat.add_mod_idemp_l by lia. auto. }
      (* what the fragment did to the indices *)
      assert (Hidx :
        match o with
        | ORet _ _ r => q_in s' = q_in (sh c0) /\ q_out s' = q_out (sh c0) /\ accepted_by op r = [] /\ delivered_by r = []
        | OFin _ r _ =>
            q_in s' = (q_in (sh c0) + length (accepted_by op r)) mod (max + 1) /\
            q_out s' = (q_out (sh c0) + length (delivered_by r)) mod (max + 1)
        | _ => q_in s' = q_in (sh c0) /\ q_out s' = q_out (sh c0)
        end).
      { assert (Hin : q_in (sh c0) mod (max+1) = q_in (sh c0)) by (rewrite H1; apply Nat.mod_mod; lia).
        assert (Hout : q_out (sh c0) mod (max+1) = q_out (sh c0)) by (rewrite H2; apply Nat.mod_mod; lia).
        assert (Hpull : pull_front (sh c0) = (s', ns, o) -> (forall v, accepted_by op (BGot v) = []) ->
           match o with
           | ORet _ _ r => False
           | OFin _ r _ => q_in s' = (q_in (sh c0) + length (accepted_by op r)) mod (max + 1) /\
              q_out s' = (q_out (sh c0) + length (delivered_by r)) mod (max + 1)
           | _ => q_in s' = q_in (sh c0) /\ q_out s' = q_out (sh c0)
           end).
        { intros E Ha. unfold pull_front in E. destruct (nth_error (data (sh c0)) (q_out (sh c0))) as [v|].
          - unfold notify_not_full_if_needed in E. simpl in E.
            destruct (0 <? waiting_full (sh c0)); (inversion E; subst; clear E); simpl; rewrite Ha; simpl;
              rewrite Nat.add_0_r, Hin, Hs1; auto.
          - (inversion E; subst; clear E); auto. }
        assert (Hpush : forall x r, push_at (sh c0) x (inc (sh c0) (q_in (sh c0))) r = (s', ns, o) ->
           accepted_by op r = [x] -> delivered_by r = [] ->
           match o with
           | ORet _ _ r => False
           | OFin _ r _ => q_in s' = (q_in (sh c0) + length (accepted_by op r)) mod (max + 1) /\
              q_out s' = (q_out (sh c0) + length (delivered_by r)) mod (max + 1)
           | _ => q_in s' = q_in (sh c0) /\ q_out s' = q_out (sh c0)
           end).
        { intros x r E Ha Hb. unfold push_at in E. destruct (q_in (sh c0) <? length (data (sh c0))).
          - unfold notify_not_empty_if_needed in E. simpl in E.
            destruct (0 <? waiting_empty (sh c0)); (inversion E; subst; clear E); simpl; rewrite Ha, Hb; simpl;
              rewrite Nat.add_0_r, Hout, Hs1; auto.
          - (inversion E; subst; clear E); auto. }
        assert (Hle : forall st : bool, op = (if st then BWaitPullFront else BPull) -> loop_not_empty (sh c0) st = (s', ns, o) ->
           match o with
        | ORet _ _ r => q_in s' = q_in (sh c0) /\ q_out s' = q_out (sh c0) /\ accepted_by op r = [] /\ delivered_by r = []
        | OFin _ r _ =>
            q_in s' = (q_in (sh c0) + length (accepted_by op r)) mod (max + 1) /\
            q_out s' = (q_out (sh c0) + length (delivered_by r)) mod (max + 1)
        | _ => q_in s' = q_in (sh c0) /\ q_out s' = q_out (sh c0)
        end).
        { intros st Ho E. unfold loop_not_empty in E. destruct (negb (q_out (sh c0) =? q_in (sh c0))).
          - apply Hpull in E; [|subst op; destruct st; auto]. destruct o; tauto.
          - destruct (q_closed (sh c0)); (inversion E; subst; clear E); destruct st; simpl; auto. }
        assert (Hlf : forall (x : V) (st : bool), op = (if st then BWaitPushBack x else BPush x) -> loop_not_full (sh c0) x st = (s', ns, o) ->
           match o with
        | ORet _ _ r => q_in s' = q_in (sh c0) /\ q_out s' = q_out (sh c0) /\ accepted_by op r = [] /\ delivered_by r = []
        | OFin _ r _ =>
            q_in s' = (q_in (sh c0) + length (accepted_by op r)) mod (max + 1) /\
            q_out s' = (q_out (sh c0) + length (delivered_by r)) mod (max + 1)
        | _ => q_in s' = q_in (sh c0) /\ q_out s' = q_out (sh c0)
        end).
        { intros x st Ho E. unfold loop_not_full in E. destruct (q_closed (sh c0)).
          - (inversion E; subst; clear E); destruct st; simpl; auto.
          - destruct (negb (inc (sh c0) (q_in (sh c0)) =? q_out (sh c0))).
            + apply Hpush in E; [|subst op; destruct st; auto|destruct st; auto]. destruct o; tauto.
            + (inversion E; subst; clear E); auto. }
        simpl in Hfr. destruct k as [op'|st|x st|]; simpl in Hk; simpl in Hfr.
        - subst op'. destruct op; simpl in Hfr;
            unfold try_push, try_push_back, wait_push_back, try_pull, try_pull_front, wait_pull_front in Hfr;
            repeat match goal with
            | H : (if ?b then _ else _) = _ |- _ => destruct b
            end;
            try (unfold ret in Hfr; inversion Hfr; subst; clear Hfr; simpl; auto; fail);
            try (apply Hpull in Hfr; [destruct o; tauto|auto]; fail);
            try (eapply Hpush in Hfr; [destruct o; tauto|reflexivity|reflexivity]; fail);
            try exact (Hle false eq_refl Hfr); try exact (Hle true eq_refl Hfr);
            try exact (Hlf x false eq_refl Hfr); try exact (Hlf x true eq_refl Hfr).
          unfold close in Hfr; inversion Hfr; subst; clear Hfr; simpl. rewrite !Nat.add_0_r. auto.
        - apply (Hle st); auto. destruct Hk as [[-> ->]|[-> ->]]; auto.
        - apply (Hlf x st); auto. destruct Hk as [[-> ->]|[-> ->]]; auto.
        - unfold ret in Hfr; inversion Hfr; subst; clear Hfr. destruct Hk as [->|[->|[x [->| ->]]]]; simpl; auto. }
      destruct o as [r|r ns'|cv k'|k'|]; simpl.
      + destruct Hidx as (E1 & E2 & E3 & E4). rewrite E1, E2, E3, E4, !app_nil_r. auto.
      + destruct Hidx as (E1 & E2). rewrite E1, E2, H1, H2, !app_length, !Nat.add_mod_idemp_l by lia. auto.
      + destruct Hidx as (-> & ->). auto.
      + destruct Hidx as (-> & ->). auto.
      + destruct Hidx as (-> & ->). auto.
  Qed.

End BQ.

Section Closed.
  Variable V : Type.
  Notation conf := (cfg (bq V) (bk V) (bop V) (bres V) bcv unit).

  Lemma fifo_step_closed max (q q' : aq V) op r :
    fifo_step max q op r q' -> aclosed q' = true <-> aclosed q = true \/ op = BClose.
  Proof.
    intros H. destruct H; simpl;
      repeat match goal with
      | H : _ \/ _ |- _ => destruct H
      | H : exists _, _ |- _ => destruct H
      | H : (_, _) = (_, _) |- _ => injection H as -> ->
      | H : _ = _ :> bop _ |- _ => subst
      end; split; intros; auto; try congruence;
      repeat match goal with H : _ \/ _ |- _ => destruct H end; try congruence.
  Qed.

  Lemma history_closed max h (q : aq V) :
    fifo_history max h q -> (aclosed q = true <-> closed_in h).
  Proof.
    unfold closed_in. induction 1 as [|t op h q H IH|t op r h q q' H IH Hs]; simpl.
    - split; [discriminate|]. intros (t & r & []).
    - rewrite IH. split; intros (t' & r' & Hin).
      + eauto.
      + destruct Hin as [Hd|Hin]; [discriminate|eauto].
    - rewrite (fifo_step_closed Hs), IH. split.
      + intros [(t' & r' & Hin)| ->]; eauto.
      + intros (t' & r' & [E|Hin]); [injection E as -> -> ->; auto|left; eauto].
  Qed.

  Lemma reachable_closed max d b n (c : conf) :
    1 <= max -> reachable (bprog V b) n (bq_new d max) tt c ->
    (q_closed (sh c) = true <-> closed_in (hist c)).
  Proof.
    intros Hm Hr. destruct (safe_reachable Hm Hr) as (_ & Hh & _).
    apply (history_closed Hh).
  Qed.

  Lemma no_push_when_closed max (q q' : aq V) op r :
    fifo_step max q op r q' -> aclosed q = true -> accepted_by op r = [].
  Proof.
    intros H Hc. destruct H; simpl;
      repeat match goal with
      | H : _ \/ _ |- _ => destruct H
      | H : exists _, _ |- _ => destruct H
      | H : (_, _) = (_, _) |- _ => injection H as -> ->
      | H : _ = _ :> bop _ |- _ => subst
      end; simpl; auto; congruence.
  Qed.

  Lemma closed_rejects max d b n (c c' : conf) ls :
    1 <= max -> reachable (bprog V b) n (bq_new d max) tt c -> closed_in (hist c) ->
    run (bprog V b) c ls = Some c' -> accepted (hist c') = accepted (hist c).
  Proof.
    intros Hm Hr Hc Hrun.
    revert c Hr Hc Hrun. induction ls as [|lb ls IH]; intros c Hr Hc Hrun; simpl in Hrun.
    - injection Hrun as <-; auto.
    - destruct (step (bprog V b) c lb) as [c1|] eqn:Hs; [|discriminate].
      assert (Hr1 : reachable (bprog V b) n (bq_new d max) tt c1) by (eapply reachable_step; eauto).
      assert (E : accepted (hist c1) = accepted (hist c) /\ closed_in (hist c1)).
      { assert (Hdone : forall t op r, hist c1 = EDone t op r :: hist c -> fifo_step max (abs (sh c)) op r (abs (sh c1)))
          by (intros; eapply done_step; eauto).
        apply (reachable_closed Hm Hr) in Hc as Hc'.
        apply step_inv in Hs. destruct Hs as
        [t' l op' Ht Hp ->|t' ps e l op' k s' ns o thr' Ht Hfr Hd ->|t' p l n0 ns thr' Ht Hd ->
        |t' l op' cv k Ht ->|t' l op' cv k k' Ht Hk ->|t' l op' cv k k' Ht Hk ->|t' l op' k k' Ht Hk ->];
        simpl in *; auto.
        - split; auto. destruct Hc as (t & r & Hin). exists t, r. right; auto.
        - destruct o as [r|r ns'|cv k'|k'|]; simpl in *; auto;
            specialize (Hdone _ _ _ eq_refl);
            rewrite (no_push_when_closed Hdone Hc'), app_nil_r; split; auto;
            destruct Hc as (t & r1 & Hin); exists t, r1; right; auto. }
      destruct E as [E1 E2]. rewrite <- E1. eapply IH; eauto.
  Qed.
End Closed.
