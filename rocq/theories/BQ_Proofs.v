(** * Proofs about the sync_bounded_queue model *)

From Verif Require Import MonitorLemmas BQ_Model BQ_Spec.
Set Implicit Arguments.

Section BQ.
  Variable V : Type.
  Notation bq := (bq V). Notation bop := (bop V). Notation bres := (bres V). Notation bk := (bk V).
  Notation tst := (tstat bk bop bcv unit).
  Notation conf := (cfg bq bk bop bres bcv unit).
  Implicit Types (s : bq).

  Definition wf (max : nat) (s : bq) : Prop :=
    1 <= max /\ cap s = max + 1 /\ length (data s) = cap s /\ q_in s < cap s /\ q_out s < cap s.

  Definition abs (s : bq) : aq V := MkA (stored s) (q_closed s).

  (** ** The ring *)

  Definition nxt (s : bq) (i : nat) : nat := ring_next (cap s) i.
  Local Arguments ring_next : simpl never.

  Ltac rn := unfold nxt, ring_next in *;
    repeat match goal with
    | |- context[S ?a =? ?b] => destruct (Nat.eqb_spec (S a) b)
    | H : context[S ?a =? ?b] |- _ => destruct (Nat.eqb_spec (S a) b)
    | |- context[?a <=? ?b] => destruct (Nat.leb_spec a b)
    | H : context[?a <=? ?b] |- _ => destruct (Nat.leb_spec a b)
    | |- context[?a <? ?b] => destruct (Nat.ltb_spec a b)
    | H : context[?a <? ?b] |- _ => destruct (Nat.ltb_spec a b)
    end; try lia.

  Lemma inc_nxt s i : i < cap s -> inc s i = nxt s i.
  Proof.
    intros H. unfold inc, nxt, ring_next. destruct (Nat.eqb_spec (S i) (cap s)) as [He|He].
    - replace (i + 1) with (cap s) by lia. apply Nat.mod_same. lia.
    - replace (i + 1) with (S i) by lia. apply Nat.mod_small. lia.
  Qed.

  Lemma ring_count_eq s :
    q_in s < cap s -> q_out s < cap s ->
    ring_count s = if q_out s <=? q_in s then q_in s - q_out s else q_in s + cap s - q_out s.
  Proof.
    intros H1 H2. unfold ring_count. destruct (Nat.leb_spec (q_out s) (q_in s)) as [H|H].
    - replace (q_in s + cap s - q_out s) with ((q_in s - q_out s) + 1 * cap s) by lia.
      rewrite Nat.mod_add by lia. apply Nat.mod_small. lia.
    - apply Nat.mod_small. lia.
  Qed.

  Lemma ring_from_length s n i :
    length (data s) = cap s -> i < cap s -> length (ring_from n i s) = n.
  Proof.
    intros Hl. revert i; induction n as [|n IH]; intros i Hi; simpl; auto.
    destruct (nth_error (data s) i) as [v|] eqn:Hv.
    - simpl. f_equal. apply IH. rn.
    - apply nth_error_None in Hv. lia.
  Qed.

  Lemma stored_length max s : wf max s -> length (stored s) = ring_count s.
  Proof. intros (H1 & H2 & H3 & H4 & H5). apply ring_from_length; auto. Qed.

  Lemma ring_from_ext (s s' : bq) n i :
    data s' = data s -> cap s' = cap s -> ring_from n i s' = ring_from n i s.
  Proof.
    intros Hd Hc. revert i; induction n as [|n IH]; intros i; simpl; auto.
    rewrite Hd, Hc. destruct (nth_error (data s) i); auto. f_equal; auto.
  Qed.

  Lemma stored_ext (s s' : bq) :
    data s' = data s -> cap s' = cap s -> q_in s' = q_in s -> q_out s' = q_out s ->
    stored s' = stored s.
  Proof.
    intros H1 H2 H3 H4. unfold stored, ring_count. rewrite H2, H3, H4. apply ring_from_ext; auto.
  Qed.

  Definition pos (s : bq) (i n : nat) : nat := if i + n <? cap s then i + n else i + n - cap s.

  Lemma ring_from_push (s s' : bq) n i j x :
    length (data s) = cap s -> i < cap s -> n < cap s -> j = pos s i n ->
    cap s' = cap s -> data s' = upd (data s) j x ->
    ring_from (S n) i s' = ring_from n i s ++ [x].
  Proof.
    intros Hl Hi Hn Hj Hc Hd. revert i n Hi Hn Hj.
    assert (G : forall n m i, i < cap s -> n + m < cap s -> j = pos s i n ->
              ring_from (S n) i s' = ring_from n i s ++ [x]).
    { induction n as [|n IH]; intros m i Hi Hn Hj.
      - simpl. unfold pos in Hj. rewrite Nat.add_0_r in Hj.
        destruct (Nat.ltb_spec i (cap s)); [|lia]. subst j.
        rewrite Hd, nth_error_upd_same by lia. reflexivity.
      - change (ring_from (S (S n)) i s') with
          (match nth_error (data s') i with
           | Some v => v :: ring_from (S n) (ring_next (cap s') i) s'
           | None => [] end).
        change (ring_from (S n) i s) with
          (match nth_error (data s) i with
           | Some v => v :: ring_from n (ring_next (cap s) i) s
           | None => [] end).
        assert (Hne : j <> i).
        { subst j; unfold pos. destruct (Nat.ltb_spec (i + S n) (cap s)); lia. }
        rewrite Hd, nth_error_upd_other by auto. rewrite Hc.
        destruct (nth_error (data s) i) as [v|] eqn:Hv.
        + simpl app. f_equal. apply (IH (S m)).
          * rn.
          * lia.
          * subst j; unfold pos. rn.
        + apply nth_error_None in Hv. lia. }
    intros i n Hi Hn Hj. apply (G n 0); auto. lia.
  Qed.

  Lemma empty_iff max s : wf max s -> (q_in s = q_out s <-> stored s = []).
  Proof.
    intros H. pose proof (stored_length H) as HL. destruct H as (H1 & H2 & H3 & H4 & H5).
    rewrite ring_count_eq in HL by auto.
    split.
    - intros He. apply length_zero_iff_nil. rewrite HL.
      destruct (Nat.leb_spec (q_out s) (q_in s)); lia.
    - intros Hs. rewrite Hs in HL. simpl in HL.
      destruct (Nat.leb_spec (q_out s) (q_in s)); lia.
  Qed.

  Lemma full_iff max s : wf max s -> (inc s (q_in s) = q_out s <-> length (stored s) = max).
  Proof.
    intros H. rewrite (stored_length H). destruct H as (H1 & H2 & H3 & H4 & H5).
    rewrite ring_count_eq, inc_nxt by auto. rn.
  Qed.

  Lemma stored_bound max s : wf max s -> length (stored s) <= max.
  Proof.
    intros H. rewrite (stored_length H). destruct H as (H1 & H2 & H3 & H4 & H5).
    rewrite ring_count_eq by auto. destruct (Nat.leb_spec (q_out s) (q_in s)); lia.
  Qed.

  Lemma pull_stored max (s s' : bq) :
    wf max s -> q_in s <> q_out s ->
    data s' = data s -> cap s' = cap s -> q_in s' = q_in s -> q_out s' = inc s (q_out s) ->
    exists v, nth_error (data s) (q_out s) = Some v /\ stored s = v :: stored s' /\ wf max s'.
  Proof.
    intros (H1 & H2 & H3 & H4 & H5) Hne Hd Hc Hi Ho.
    destruct (nth_error (data s) (q_out s)) as [v|] eqn:Hv.
    2:{ apply nth_error_None in Hv; lia. }
    exists v; split; auto.
    rewrite inc_nxt in Ho by auto.
    assert (Hn : nxt s (q_out s) < cap s).
    { rn. }
    split.
    - unfold stored at 1. destruct (ring_count s) as [|n] eqn:Hr.
      { rewrite ring_count_eq in Hr by auto. destruct (Nat.leb_spec (q_out s) (q_in s)); lia. }
      simpl. rewrite Hv. f_equal. unfold stored.
      rewrite (@ring_from_ext s s') by auto. rewrite Ho. unfold nxt at 1. f_equal.
      rewrite ring_count_eq in Hr by auto.
      rewrite ring_count_eq by (rewrite ?Hc, ?Hi, ?Ho; auto).
      rewrite Hi, Ho, Hc. rn.
    - unfold wf. rewrite Hd, Hc, Hi, Ho. auto.
  Qed.

  Lemma push_stored max (s s' : bq) x :
    wf max s -> inc s (q_in s) <> q_out s ->
    data s' = upd (data s) (q_in s) x -> cap s' = cap s -> q_in s' = inc s (q_in s) -> q_out s' = q_out s ->
    stored s' = stored s ++ [x] /\ wf max s'.
  Proof.
    intros Hwf Hne Hd Hc Hi Ho. pose proof Hwf as (H1 & H2 & H3 & H4 & H5).
    pose proof (stored_bound Hwf) as HB.
    assert (HB' : length (stored s) <> max) by (intros E; apply Hne; apply (full_iff Hwf); auto).
    rewrite (stored_length Hwf) in HB, HB'.
    rewrite inc_nxt in Hi, Hne by auto.
    assert (Hn : nxt s (q_in s) < cap s).
    { rn. }
    split.
    - unfold stored. rewrite Ho.
      assert (Hcnt : ring_count s' = S (ring_count s)).
      { rewrite !ring_count_eq by (rewrite ?Hc, ?Hi, ?Ho; auto). rewrite Hi, Ho, Hc. rn. }
      rewrite Hcnt. apply (@ring_from_push s s' (ring_count s) (q_out s) (q_in s) x); auto; try lia.
      unfold pos. rewrite ring_count_eq by auto.
      destruct (Nat.leb_spec (q_out s) (q_in s)); destruct (Nat.ltb_spec (q_out s + (q_in s - q_out s)) (cap s));
        try destruct (Nat.ltb_spec (q_out s + (q_in s + cap s - q_out s)) (cap s)); lia.
    - unfold wf. rewrite Hd, Hc, Hi, Ho, upd_length. auto.
  Qed.

  Lemma wf_new d max : 1 <= max -> wf max (bq_new d max).
  Proof. intros H. unfold wf, bq_new; simpl. rewrite repeat_length. lia. Qed.

  Lemma stored_new (d : V) max : 1 <= max -> stored (bq_new d max) = [].
  Proof. intros H. apply (empty_iff (wf_new d H)). reflexivity. Qed.

  (** ** What one fragment does *)

  (** The continuation fits the operation. *)
  Definition kfit (op : bop) (k : bk) : Prop :=
    match k with
    | KGo op' => op' = op
    | KLoopE st => (op = BPull /\ st = false) \/ (op = BWaitPullFront /\ st = true)
    | KLoopF x st => (op = BPush x /\ st = false) \/ (op = BWaitPushBack x /\ st = true)
    | KIntr => op = BPull \/ op = BWaitPullFront \/ exists x, op = BPush x \/ op = BWaitPushBack x
    end.

  (** About to try to pull (push), blocking if that is not possible. *)
  Definition wants_pull (k : bk) : bool :=
    match k with KGo (BPull) | KGo (BWaitPullFront) | KLoopE _ => true | _ => false end.
  Definition wants_push (k : bk) : bool :=
    match k with KGo (BPush _) | KGo (BWaitPushBack _) | KLoopF _ _ => true | _ => false end.

  Inductive bcase (max : nat) (op : bop) (k : bk) (s s' : bq) (o : outcome bk bcv bres) : Prop :=
  | bc_ret r :
      o = ORet bk bcv r -> s' = s -> fifo_step max (abs s) op r (abs s) ->
      intr_of r = match k with KIntr => 1 | _ => 0 end ->
      (wants_pull k = true -> q_closed s = true) -> (wants_push k = true -> q_closed s = true) ->
      bcase max op k s s' o
  | bc_push r x ns :
      o = OFin bk r ns -> fifo_step max (abs s) op r (abs s') ->
      q_closed s = false -> q_closed s' = false -> stored s' = stored s ++ [x] ->
      intr_of r = 0 -> wants_pull k = false ->
      waiting_full s' = waiting_full s ->
      (ns = [NOne NotEmpty] /\ waiting_empty s = S (waiting_empty s')) \/
      (ns = [] /\ waiting_empty s = 0 /\ waiting_empty s' = 0) ->
      bcase max op k s s' o
  | bc_pull v ns :
      o = OFin bk (BGot v) ns -> fifo_step max (abs s) op (BGot v) (abs s') ->
      stored s = v :: stored s' -> q_closed s' = q_closed s ->
      wants_push k = false ->
      waiting_empty s' = waiting_empty s ->
      (ns = [NOne NotFull] /\ waiting_full s = S (waiting_full s')) \/
      (ns = [] /\ waiting_full s = 0 /\ waiting_full s' = 0) ->
      bcase max op k s s' o
  | bc_close :
      o = OFin bk (BVoid) [NAll NotEmpty; NAll NotFull] ->
      fifo_step max (abs s) op (BVoid) (abs s') ->
      stored s' = stored s -> q_closed s' = true -> wants_pull k = false -> wants_push k = false ->
      waiting_empty s' = waiting_empty s -> waiting_full s' = waiting_full s ->
      bcase max op k s s' o
  | bc_sleepE st :
      o = OSleep bres NotEmpty (KLoopE st) -> kfit op (KLoopE st) ->
      stored s = [] -> stored s' = [] -> q_closed s = false -> q_closed s' = false -> wants_pull k = true ->
      wants_push k = false ->
      waiting_empty s' = S (waiting_empty s) -> waiting_full s' = waiting_full s ->
      bcase max op k s s' o
  | bc_sleepF x st :
      o = OSleep bres NotFull (KLoopF x st) -> kfit op (KLoopF x st) ->
      length (stored s) = max -> stored s' = stored s -> q_closed s = false -> q_closed s' = false ->
      wants_push k = true -> wants_pull k = false ->
      waiting_full s' = S (waiting_full s) -> waiting_empty s' = waiting_empty s ->
      bcase max op k s s' o.

  Lemma pull_front_case max op k s s' ns o :
    wf max s -> q_in s <> q_out s -> wants_push k = false ->
    (op = BPull \/ op = BTryPull \/ op = BTryPullNB \/ op = BTryPullFront \/
      op = BNBPullFront \/ op = BWaitPullFront) ->
    pull_front s = (s', ns, o) -> ns = [] /\ wf max s' /\ bcase max op k s s' o.
  Proof.
    intros Hwf Hne Hk Hop. unfold pull_front.
    set (s1 := MkQ (waiting_full s) (waiting_empty s) (data s) (q_in s) (inc s (q_out s)) (cap s) (q_closed s)).
    destruct (@pull_stored max s s1 Hwf Hne eq_refl eq_refl eq_refl eq_refl) as (v & Hv & Hst & Hwf1).
    rewrite Hv. destruct (notify_not_full_if_needed s1) as [s2 ms] eqn:Hn.
    intros E; injection E as <- <- <-.
    unfold notify_not_full_if_needed in Hn. simpl in Hn.
    assert (Hf : forall q, stored q = stored s1 -> q_closed q = q_closed s ->
                 fifo_step max (abs s) op (BGot v) (abs q)).
    { intros q H1 H2. unfold abs at 2. rewrite H1, H2.
      change (q_closed s) with (aclosed (abs s)). apply f_pull; auto. }
    destruct (0 <? waiting_full s) eqn:Hw; injection Hn as <- <-.
    - apply Nat.ltb_lt in Hw.
      match goal with |- _ /\ wf _ ?q /\ _ => set (s2 := q) end.
      assert (E2 : stored s2 = stored s1) by (apply stored_ext; reflexivity).
      split; [auto|]. split.
      + unfold wf in *; simpl in *; tauto.
      + eapply bc_pull; eauto.
        * rewrite E2; auto.
        * left; split; auto. simpl. lia.
    - apply Nat.ltb_ge in Hw. split; [auto|]. split; [auto|].
      eapply bc_pull; eauto. right. repeat split; simpl; auto; lia.
  Qed.

  Lemma push_at_case max op k s s' ns o x r :
    wf max s -> q_closed s = false -> inc s (q_in s) <> q_out s -> wants_pull k = false ->
    ((op, r) = (BPush x, BVoid) \/
      (op, r) = (BTryPush x, BBool true) \/ (op, r) = (BTryPushNB x, BBool true) \/
      (op, r) = (BTryPushBack x, BSt st_success) \/
      (op, r) = (BNBPushBack x, BSt st_success) \/
      (op, r) = (BWaitPushBack x, BSt st_success)) ->
    push_at s x (inc s (q_in s)) r = (s', ns, o) -> ns = [] /\ wf max s' /\ bcase max op k s s' o.
  Proof.
    intros Hwf Hcl Hne Hk Hop. unfold push_at.
    pose proof Hwf as (H1 & H2 & H3 & H4 & H5).
    destruct (Nat.ltb_spec (q_in s) (length (data s))); [|lia].
    set (s1 := MkQ (waiting_full s) (waiting_empty s) (upd (data s) (q_in s) x) (inc s (q_in s)) (q_out s) (cap s) (q_closed s)).
    destruct (@push_stored max s s1 x Hwf Hne eq_refl eq_refl eq_refl eq_refl) as [Hst Hwf1].
    destruct (notify_not_empty_if_needed s1) as [s2 ms] eqn:Hn.
    intros E; injection E as <- <- <-.
    unfold notify_not_empty_if_needed in Hn. simpl in Hn.
    assert (Hf : forall q, stored q = stored s1 -> q_closed q = q_closed s ->
                 fifo_step max (abs s) op r (abs q)).
    { intros q E1 E2. unfold abs at 2. rewrite E1, E2, Hst, Hcl.
      change (stored s) with (items (abs s)). eapply f_push; eauto.
      simpl. pose proof (stored_bound Hwf). pose proof (full_iff Hwf) as Hfi.
      assert (length (stored s) <> max) by (intros E; apply Hne, Hfi; auto). lia. }
    destruct (0 <? waiting_empty s) eqn:Hw; injection Hn as <- <-.
    - apply Nat.ltb_lt in Hw.
      match goal with |- _ /\ wf _ ?q /\ _ => set (s2 := q) end.
      assert (E2 : stored s2 = stored s1) by (apply stored_ext; reflexivity).
      split; [auto|]. split.
      + unfold wf in *; simpl in *; tauto.
      + eapply bc_push; eauto.
        * rewrite E2; eauto.
        * clear -Hop; destruct r; simpl; auto; intuition congruence.
        * left; split; auto. simpl. lia.
    - apply Nat.ltb_ge in Hw. split; [auto|]. split; [auto|].
      eapply bc_push; eauto.
      { clear -Hop; destruct r; simpl; auto; intuition congruence. }
      right. repeat split; simpl; auto; lia.
  Qed.

  Lemma loop_not_empty_case max op k s s' ns o st :
    wf max s -> wants_pull k = true -> wants_push k = false ->
    (op = BPull /\ st = false) \/ (op = BWaitPullFront /\ st = true) ->
    loop_not_empty s st = (s', ns, o) -> ns = [] /\ wf max s' /\ bcase max op k s s' o.
  Proof.
    intros Hwf Hk1 Hk2 Hop. unfold loop_not_empty.
    destruct (Nat.eqb_spec (q_out s) (q_in s)) as [He|He]; simpl.
    - assert (Hst : stored s = []) by (apply (empty_iff Hwf); auto).
      destruct (q_closed s) eqn:Hc.
      + intros E; injection E as <- <- <-. repeat split; try apply Hwf.
        eapply bc_ret; eauto.
        * apply f_pull_closed; simpl; auto. destruct Hop as [[-> ->]|[-> ->]]; tauto.
        * destruct k; try discriminate; destruct st; reflexivity.
      + intros E; injection E as <- <- <-.
        match goal with |- _ /\ wf _ ?q /\ _ => set (s2 := q) end.
        assert (E2 : stored s2 = stored s) by (apply stored_ext; reflexivity).
        split; [auto|]. split; [unfold wf in *; simpl in *; tauto|].
        eapply bc_sleepE; eauto; try congruence.
    - apply pull_front_case; auto. tauto.
  Qed.

  Lemma loop_not_full_case max op k s s' ns o x st :
    wf max s -> wants_pull k = false -> (wants_push k = true) ->
    (op = BPush x /\ st = false) \/ (op = BWaitPushBack x /\ st = true) ->
    loop_not_full s x st = (s', ns, o) -> ns = [] /\ wf max s' /\ bcase max op k s s' o.
  Proof.
    intros Hwf Hk1 Hk2 Hop. unfold loop_not_full. destruct (q_closed s) eqn:Hc.
    - intros E; injection E as <- <- <-. repeat split; try apply Hwf.
      eapply bc_ret; eauto.
      { apply f_push_closed with (x:=x); simpl; auto.
        destruct Hop as [[-> ->]|[-> ->]]; tauto. }
      destruct k; try discriminate; reflexivity.
    - destruct (Nat.eqb_spec (inc s (q_in s)) (q_out s)) as [He|He]; simpl.
      + intros E; injection E as <- <- <-.
        match goal with |- _ /\ wf _ ?q /\ _ => set (s2 := q) end.
        assert (E2 : stored s2 = stored s) by (apply stored_ext; reflexivity).
        split; [auto|]. split; [unfold wf in *; simpl in *; tauto|].
        eapply bc_sleepF; eauto. apply (full_iff Hwf); auto.
      + intros E. eapply push_at_case; eauto.
        destruct Hop as [[-> ->]|[-> ->]]; tauto.
  Qed.

  Lemma try_push_gen max op k s s' ns o x rc rf rs :
    k = KGo op -> wf max s -> wants_pull k = false -> wants_push k = false ->
    ((op, rs) = (BTryPush x, BBool true) \/ (op, rs) = (BTryPushNB x, BBool true) \/
      (op, rs) = (BTryPushBack x, BSt st_success) \/ (op, rs) = (BNBPushBack x, BSt st_success)) ->
    ((op, rf) = (BTryPush x, BBool false) \/ (op, rf) = (BTryPushNB x, BBool false) \/
      (op, rf) = (BTryPushBack x, BSt st_full) \/ (op, rf) = (BNBPushBack x, BSt st_full)) ->
    ((op, rc) = (BTryPush x, BThrowClosed) \/ (op, rc) = (BTryPushNB x, BThrowClosed) \/
      (op, rc) = (BTryPushBack x, BSt st_closed) \/ (op, rc) = (BNBPushBack x, BSt st_closed)) ->
    (if q_closed s then ret s rc
     else if inc s (q_in s) =? q_out s then ret s rf else push_at s x (inc s (q_in s)) rs) = (s', ns, o) ->
    ns = [] /\ wf max s' /\ bcase max op k s s' o.
  Proof.
    intros Hk0 Hwf Hk1 Hk2 Hs Hf Hc. destruct (q_closed s) eqn:Hcl.
    - intros E; injection E as <- <- <-. repeat split; try apply Hwf.
      eapply bc_ret; eauto; try congruence; [|subst k; clear -Hs Hc Hf; destruct rf,rc; simpl; auto; intuition congruence].
      apply f_push_closed with (x:=x); simpl; auto. tauto.
    - destruct (Nat.eqb_spec (inc s (q_in s)) (q_out s)) as [He|He].
      + intros E; injection E as <- <- <-. repeat split; try apply Hwf.
        eapply bc_ret; eauto; try congruence; [|subst k; clear -Hs Hc Hf; destruct rf,rc; simpl; auto; intuition congruence].
        apply f_full with (x:=x); simpl; auto.
        apply (full_iff Hwf); auto.
      + apply push_at_case; auto. tauto.
  Qed.

  Lemma try_pull_gen max op k s s' ns o rc re :
    k = KGo op -> wf max s -> wants_pull k = false -> wants_push k = false ->
    (op = BTryPull \/ op = BTryPullNB \/ op = BTryPullFront \/ op = BNBPullFront) ->
    ((op, re) = (BTryPull, BBool false) \/ (op, re) = (BTryPullNB, BBool false) \/
      (op, re) = (BTryPullFront, BSt st_empty) \/ (op, re) = (BNBPullFront, BSt st_empty)) ->
    ((op, rc) = (BTryPull, BThrowClosed) \/ (op, rc) = (BTryPullNB, BThrowClosed) \/
      (op, rc) = (BTryPullFront, BSt st_closed) \/ (op, rc) = (BNBPullFront, BSt st_closed)) ->
    (if b_empty s then if q_closed s then ret s rc else ret s re else pull_front s) = (s', ns, o) ->
    ns = [] /\ wf max s' /\ bcase max op k s s' o.
  Proof.
    intros Hk0 Hwf Hk1 Hk2 Hop Hs Hc. unfold b_empty. destruct (Nat.eqb_spec (q_in s) (q_out s)) as [He|He].
    - assert (Hst : stored s = []) by (apply (empty_iff Hwf); auto).
      destruct (q_closed s) eqn:Hcl; intros E; injection E as <- <- <-; repeat split; try apply Hwf.
      + eapply bc_ret; eauto; try congruence; [|subst k; clear -Hs Hc; destruct re,rc; simpl; auto; intuition congruence].
        apply f_pull_closed; simpl; auto. tauto.
      + eapply bc_ret; eauto; try congruence; [|subst k; clear -Hs Hc; destruct re,rc; simpl; auto; intuition congruence].
        apply f_empty; simpl; auto.
    - apply pull_front_case; auto. tauto.
  Qed.

  Lemma bfrag_case max op k s s' ns o t e :
    wf max s -> kfit op k -> bfrag t e k s = (s', ns, o) ->
    ns = [] /\ wf max s' /\ bcase max op k s s' o.
  Proof.
    intros Hwf Hk. destruct k as [op'|st|x st|]; simpl in Hk; simpl bfrag.
    - subst op'.
      assert (Hret : forall r, fifo_step max (abs s) op r (abs s) ->
                intr_of r = 0 -> wants_pull (KGo op) = false -> wants_push (KGo op) = false ->
                ret s r = (s', ns, o) -> ns = [] /\ wf max s' /\ bcase max op (KGo op) s s' o).
      { intros r H1 Hr H2 H3 E; injection E as <- <- <-. repeat split; try apply Hwf.
        eapply bc_ret; eauto; congruence. }
      destruct op as [x|x|x|x|x|x| | | | | | | | | | | |]; simpl run_op.
      + apply loop_not_full_case; simpl; auto.
      + apply try_push_gen; simpl; auto; tauto.
      + destruct e.
        * apply Hret; auto. apply f_busy. left; eauto.
        * apply try_push_gen; simpl; auto; tauto.
      + apply try_push_gen; simpl; auto; tauto.
      + destruct e.
        * apply Hret; auto. apply f_busy. left; eauto.
        * apply try_push_gen; simpl; auto; tauto.
      + unfold wait_push_back. destruct (q_closed s) eqn:Hc.
        * intros E; injection E as <- <- <-. repeat split; try apply Hwf.
          eapply bc_ret; eauto.
          apply f_push_closed with (x:=x); simpl; auto. tauto.
        * apply loop_not_full_case; simpl; auto.
      + apply loop_not_empty_case; simpl; auto.
      + apply try_pull_gen; simpl; auto; tauto.
      + destruct e.
        * apply Hret; auto. apply f_busy. tauto.
        * apply try_pull_gen; simpl; auto; tauto.
      + apply try_pull_gen; simpl; auto; tauto.
      + destruct e.
        * apply Hret; auto. apply f_busy. tauto.
        * apply try_pull_gen; simpl; auto; tauto.
      + unfold wait_pull_front, b_empty. destruct (Nat.eqb_spec (q_in s) (q_out s)) as [He|He];
          destruct (q_closed s) eqn:Hc; simpl.
        2-4: apply loop_not_empty_case; simpl; auto.
        intros E; injection E as <- <- <-. repeat split; try apply Hwf.
        eapply bc_ret; eauto.
        apply f_pull_closed; simpl; auto; [tauto|].
        apply (empty_iff Hwf); auto.
      + intros E; injection E as <- <- <-.
        match goal with |- _ /\ wf _ ?q /\ _ => set (s2 := q) end.
        assert (E2 : stored s2 = stored s) by (apply stored_ext; reflexivity).
        split; [auto|]. split; [unfold wf in *; simpl in *; tauto|].
        apply bc_close; auto. unfold abs at 2. rewrite E2. simpl.
        change (stored s) with (items (abs s)). apply f_close.
      + apply Hret; auto. apply (f_closed max (abs s)).
      + apply Hret; auto. apply f_is_empty. simpl. unfold b_empty. rewrite Nat.eqb_eq.
        apply (empty_iff Hwf).
      + apply Hret; auto. apply f_is_full. simpl. unfold b_full. rewrite Nat.eqb_eq.
        apply (full_iff Hwf).
      + apply Hret; auto. unfold b_capacity. destruct Hwf as (H1 & H2 & _).
        rewrite H2. replace (max + 1 - 1) with max by lia. apply f_capacity.
      + apply Hret; auto. apply f_size.
    - apply loop_not_empty_case; simpl; auto.
    - apply loop_not_full_case; simpl; auto.
    - intros E; injection E as <- <- <-. repeat split; try apply Hwf.
      eapply bc_ret; eauto; try (simpl; congruence); idtac. apply f_intr; auto.
  Qed.

  (** ** Safety: every run is a run of the abstract queue *)

  Definition tfit (x : tst) : Prop :=
    match x with
    | Ready _ _ op k => kfit op k
    | Asleep _ op c k =>
        kfit op k /\
        match k with KLoopE _ => c = NotEmpty | KLoopF _ _ => c = NotFull | _ => False end
    | Crashed _ _ _ _ => False
    | _ => True
    end.

  Definition safe (max : nat) (c : conf) : Prop :=
    wf max (sh c) /\ fifo_history max (hist c) (abs (sh c)) /\ Forall tfit (thr c).

  Lemma tfit_wake x : is_asleep x = true -> tfit x -> tfit (wake x).
  Proof. destruct x; simpl; try discriminate. tauto. Qed.

  Lemma intr_fit b op k k' : b_on_intr b k = Some k' -> kfit op k -> kfit op k'.
  Proof.
    unfold b_on_intr. destruct b; [|discriminate]. destruct k; try discriminate;
      intros E; injection E as <-; simpl; intros [[-> _]|[-> _]]; eauto.
  Qed.

  Lemma safe_step max b (c c' : conf) : safe max c -> stepcase (bprog V b) c c' -> safe max c'.
  Proof.
    intros (Hwf & Hh & Hf) Hs. destruct Hs as
      [t l op Ht Hp ->|t ps e l op k s' ns o thr' Ht Hfr Hd ->|t p l n ns thr' Ht Hd ->
      |t l op cv k Ht ->|t l op cv k k' Ht Hk ->|t l op cv k k' Ht Hk ->|t l op k k' Ht Hk ->];
      unfold safe; simpl.
    - split; [auto|split; [constructor; auto|]]. apply Forall_upd; simpl; auto.
    - assert (Hk : kfit op k) by (apply (Forall_nth_error Hf Ht)).
      destruct (@bfrag_case max op k (sh c) s' ns o t e Hwf Hk Hfr) as (-> & Hwf' & Hc).
      simpl in Hd. injection Hd as <-.
      split; [auto|].
      destruct Hc as [r Ho Hs Hst _ _ _|r x ns Ho Hst|v ns Ho Hst|Ho Hst|st Ho Hkf Hs1 Hs2 Hc1 Hc2|x st Ho Hkf Hs1 Hs2 Hc1 Hc2];
        subst o; simpl.
      + subst s'. split; [econstructor; eauto|apply Forall_upd; simpl; auto].
      + split; [econstructor; eauto|apply Forall_upd; simpl; auto]. destruct ns; simpl; auto.
      + split; [econstructor; eauto|apply Forall_upd; simpl; auto]. destruct ns; simpl; auto.
      + split; [econstructor; eauto|apply Forall_upd; simpl; auto].
      + split; [|apply Forall_upd; simpl; auto]. unfold abs in *. congruence.
      + split; [|apply Forall_upd; simpl; auto]. unfold abs in *. congruence.
    - split; [auto|split; [auto|]]. apply Forall_upd.
      + eapply woken_Forall; [eapply deliver_woken; eauto|apply tfit_wake|auto].
      + destruct ns; simpl; auto.
    - split; [auto|split; [auto|]]. apply Forall_upd; auto.
      apply (Forall_nth_error Hf) in Ht. simpl in *. tauto.
    - discriminate.
    - split; [auto|split; [auto|]]. apply Forall_upd; auto.
      apply (Forall_nth_error Hf) in Ht. simpl in *. eapply intr_fit; eauto. tauto.
    - split; [auto|split; [auto|]]. apply Forall_upd; auto.
      apply (Forall_nth_error Hf) in Ht. simpl in *. eapply intr_fit; eauto.
  Qed.

  Lemma safe_reachable max d b n c :
    1 <= max -> reachable (bprog V b) n (bq_new d max) tt c -> safe max c.
  Proof.
    intros Hm. apply reachable_inv.
    - split; [apply wf_new; auto|]. split; simpl.
      + unfold abs. rewrite (stored_new d Hm). simpl. constructor.
      + apply Forall_forall. intros x Hx. apply repeat_spec in Hx. subst x. exact I.
    - intros; eapply safe_step; eauto.
  Qed.

  (** ** Consequences of being a history of the abstract queue *)

  Lemma fifo_step_ad max (q q' : aq V) op r :
    fifo_step max q op r q' -> items q ++ accepted_by op r = delivered_by r ++ items q'.
  Proof.
    intros H. destruct H; simpl;
      repeat match goal with
      | H : _ \/ _ |- _ => destruct H
      | H : exists _, _ |- _ => destruct H
      | H : (_, _) = (_, _) |- _ => injection H as -> ->
      | H : _ = _ :> bop |- _ => subst
      end; simpl; rewrite ?app_nil_r; auto.
  Qed.

  Lemma fifo_history_ad max h (q : aq V) :
    fifo_history max h q -> accepted h = delivered h ++ items q.
  Proof.
    induction 1 as [|t op h q H IH|t op r h q q' H IH Hs]; simpl; auto.
    rewrite IH, <- !app_assoc. f_equal. eapply fifo_step_ad; eauto.
  Qed.

End BQ.
