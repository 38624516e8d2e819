(** * underlying_queue() and devector as a sequence *)

From Verif Require Import MonitorLemmas SQ_Model SQ_Spec SQ_Proofs.
Set Implicit Arguments.

(** ** devector against lists *)

Definition dv_seq_inv {V} (d : devector V) (l : option (list V)) : Prop :=
  match l with Some l => dv_wf d /\ dv_stored d = l | None => True end.

Lemma dv_do_inv {V} (d : devector V) l o : dv_seq_inv d l -> dv_seq_inv (dv_do d o) (seq_do l o).
Proof.
  destruct l as [l|]; [|simpl; auto]. intros (Hw & Hs). destruct o as [x|]; unfold dv_seq_inv; simpl.
  - destruct (dv_push_spec x Hw) as (H1 & H2). split; [exact H1|]. rewrite <- Hs. exact H2.
  - destruct l as [|v l]; simpl; auto. destruct (dv_pop_spec Hw Hs) as (_ & H1 & H2 & _). auto.
Qed.

Lemma dv_run_inv {V} (ops : list (dv_op V)) d l :
  dv_seq_inv d l -> dv_seq_inv (fold_left dv_do ops d) (fold_left seq_do ops l).
Proof. revert d l. induction ops as [|o ops IH]; intros d l H; simpl; auto. apply IH, dv_do_inv, H. Qed.

Lemma dv_front_hd {V} (d : devector V) : dv_at_front d = hd_error (dv_stored d).
Proof.
  unfold dv_at_front, dv_stored. generalize (dv_data d), (dv_front d). intros l n. revert n.
  induction l as [|x l IH]; intros [|n]; simpl; auto.
Qed.

Lemma last_error_app {V} (l : list V) x : nth_error (l ++ [x]) (length (l ++ [x]) - 1) = Some x.
Proof. rewrite app_length, nth_error_app2 by (simpl; lia). simpl. replace (length l + 1 - 1 - length l) with 0 by lia. reflexivity. Qed.

Lemma dv_back_spec {V} (d : devector V) l x : dv_stored d = l ++ [x] -> dv_back d = Some x.
Proof.
  unfold dv_back, dv_stored. intros H.
  rewrite <- (firstn_skipn (dv_front d) (dv_data d)), H, app_assoc. apply last_error_app.
Qed.

(** ** What a fragment does to the container *)
Section Shape.
  Variables V D : Type.
  Variable ct : container V D.

  Definition shape (op : qop V) (s s' : sq D) (o : outcome (qk V) scv (qres V D)) : Prop :=
    match o with
    | ORet _ _ r | OFin _ r _ =>
        match r with
        | QGot v => d_pull ct (q_data s) = Some (v, q_data s')
        | QMoved d => False
        | _ => (exists x, q_accepted_by op r = [x] /\ q_data s' = d_push ct x (q_data s)) \/
               (q_accepted_by op r = [] /\ q_data s' = q_data s)
        end
    | _ => q_data s' = q_data s
    end.

  Lemma do_pull_shape op s : let '(s', ns, o) := do_pull ct s in shape op s s' o.
  Proof. unfold do_pull. destruct (d_pull ct (q_data s)) as [[v d]|] eqn:E; simpl; auto. Qed.

  Lemma after_wait_shape op s : kfit op (KWait op) -> let '(s', ns, o) := after_wait ct op s in shape op s s' o.
  Proof.
    intros (_ & Hk). unfold after_wait. destruct (negb _); [apply do_pull_shape|].
    destruct Hk as [ <- |[ <- |[ <- |[]]]]; try (simpl; auto; fail).
    destruct (q_cl s); [simpl; auto|apply do_pull_shape].
  Qed.
  Lemma wait_loop_shape op s : kfit op (KWait op) -> let '(s', ns, o) := wait_loop ct op s in shape op s s' o.
  Proof.
    intros Hk. unfold wait_loop. destruct (not_empty_or_closed ct s); [apply after_wait_shape; auto|simpl; auto].
  Qed.
  Lemma try_pull_shape op s :
    op = QTryPull \/ op = QNBPull -> let '(s', ns, o) := sq_try_pull ct s in shape op s s' o.
  Proof.
    intros Hop. unfold sq_try_pull. destruct (d_empty ct (q_data s)); [|apply do_pull_shape].
    simpl. right. destruct Hop; subst; simpl; auto.
  Qed.
  Lemma try_push_shape op s x :
    op = QTryPush x \/ op = QWaitPush x \/ op = QNBPush x ->
    let '(s', ns, o) := sq_try_push ct s x in shape op s s' o.
  Proof.
    intros Hop. unfold sq_try_push. destruct (q_cl s); simpl.
    - right. intuition (subst; auto).
    - left. exists x. intuition (subst; auto).
  Qed.

  Lemma frag_shape t busy op k s :
    kfit op k -> op <> QUnderlying -> let '(s', ns, o) := qfrag ct t busy k s in shape op s s' o.
  Proof.
    intros Hk Hne. destruct k as [op'|op'| |]; simpl in Hk; unfold qfrag.
    - subst op'. destruct op; try congruence; simpl sq_op;
        try (apply wait_loop_shape; simpl; auto; fail);
        try (apply try_pull_shape; auto; fail);
        try (apply try_push_shape; auto; fail);
        try (simpl; auto; fail).
      + unfold sq_push. destruct (q_cl s); simpl; eauto.
      + destruct busy; [simpl; auto|apply try_push_shape; auto].
      + destruct busy; [simpl; auto|apply try_pull_shape; auto].
    - destruct Hk as (-> & Hk). apply wait_loop_shape. simpl; auto.
    - subst op. unfold timed_out. destruct (not_empty_or_closed ct s).
      + apply after_wait_shape. simpl; auto.
      + simpl; auto.
    - simpl. right. split; auto. destruct Hk as [ <- |[ <- |[ <- |[]]]]; auto.
  Qed.
End Shape.

(** ** sync_queue with underlying_queue() *)
Section Moved.
  Variable V : Type.
  Notation ct := (dv_container V).
  Notation P := (sqprog ct true).
  Notation tst := (tstat (qk V) (qop V) scv unit).
  Notation conf := (cfg (sq (devector V)) (qk V) (qop V) (qres V (devector V)) scv unit).

  Definition tfit0 (x : tst) : Prop :=
    match x with
    | Ready _ _ op k | Asleep _ op _ k => kfit op k
    | Crashed _ _ _ _ => False
    | _ => True
    end.

  Definition MInv (c : conf) : Prop :=
    moved_untouched (hist c) ->
      Forall tfit0 (thr c) /\
      exists q, uq_history fifo_take (@dv_holds V) (hist c) q /\ repr (@dv_holds V) (sh c) q /\
        pulled_since_empty (hist c) = (length (u_items q), dv_front (q_data (sh c))).

  Lemma untouched_tl e h : moved_untouched (V := V) (D := devector V) (e :: h) -> moved_untouched h.
  Proof. destruct e as [t op|t op r]; simpl; auto. destruct op; auto. intros []; auto. Qed.

  Lemma untouched_after t l op o h :
    moved_untouched (snd (after P t l op o h)) -> moved_untouched h.
  Proof. destruct o; simpl; auto; apply untouched_tl with (e := EDone t op r). Qed.

  Lemma tfit0_wake x : is_asleep x = true -> tfit0 x -> tfit0 (wake x).
  Proof. destruct x; simpl; auto. Qed.

  (** The ghost counters follow the front index. *)
  Lemma pse_step t op k s s' ns o e q q' r h :
    qfrag ct t e k s = (s', ns, o) -> kfit op k -> op <> QUnderlying ->
    (o = ORet _ _ r \/ exists ns', o = OFin _ r ns') ->
    repr (@dv_holds V) s q -> repr (@dv_holds V) s' q' -> uq_step fifo_take (@dv_holds V) q op r q' ->
    pulled_since_empty h = (length (u_items q), dv_front (q_data s)) ->
    pulled_since_empty (EDone t op r :: h) = (length (u_items q'), dv_front (q_data s')).
  Proof.
    intros Hf Hk Hne Ho ((Hw & Hq) & _) ((Hw' & Hq') & _) Hst Hp.
    pose proof (@frag_shape _ _ ct t e op k s Hk Hne) as HS. rewrite Hf in HS.
    simpl. rewrite Hp.
    assert (HS' : match r with
        | QGot v => d_pull ct (q_data s) = Some (v, q_data s')
        | QMoved d => False
        | _ => (exists x, q_accepted_by op r = [x] /\ q_data s' = d_push ct x (q_data s)) \/
               (q_accepted_by op r = [] /\ q_data s' = q_data s)
        end) by (destruct Ho as [->|(ns' & ->)]; exact HS).
    clear HS. rewrite <- Hq, <- Hq'.
    assert (G : (exists x, q_accepted_by op r = [x] /\ q_data s' = d_push ct x (q_data s)) \/
               (q_accepted_by op r = [] /\ q_data s' = q_data s) ->
        (length (dv_stored (q_data s)) + length (q_accepted_by op r), dv_front (q_data s)) =
        (length (dv_stored (q_data s')), dv_front (q_data s'))).
    { intros [(x & Ha & Hd)|(Ha & Hd)]; rewrite Ha, Hd; simpl.
      - destruct (dv_push_spec x Hw) as (_ & ->). rewrite app_length. reflexivity.
      - rewrite Nat.add_0_r. reflexivity. }
    destruct r; try (exact (G HS')); try contradiction.
    simpl in HS'. unfold dv_pull in HS'. rewrite dv_front_hd in HS'.
    destruct (dv_stored (q_data s)) as [|v' l] eqn:Hs; simpl in HS'; [discriminate|].
    injection HS' as -> Hd. destruct (dv_pop_spec Hw Hs) as (_ & _ & H1 & H2).
    rewrite <- Hd, H1, H2. destruct l; simpl; rewrite ?Nat.sub_0_r; reflexivity.
  Qed.

  Lemma MInv_step c c' : MInv c -> stepcase P c c' -> MInv c'.
  Proof.
    intros HM Hs. destruct Hs as
     [t l op Ht Hp ->|t ps e l op k s' ns o thr' Ht Hfr Hd ->|t p l n ns thr' Ht Hd ->
     |t l op cv k Ht ->|t l op cv k k' Ht Hk ->|t l op cv k k' Ht Hk ->|t l op k k' Ht Hk ->];
    unfold MInv; simpl; intros Hg.
    2:{ apply untouched_after in Hg as Hg0. destruct (HM Hg0) as (HT & q & Hq & Hr & Hps).
      pose proof (Forall_nth_error HT Ht) as Hk. simpl in Hk.
      assert (HT' : Forall tfit0 thr').
      { eapply woken_Forall; [eapply deliver_all_woken; eauto|apply tfit0_wake|auto]. }
      assert (D : op = QUnderlying \/ op <> QUnderlying) by (destruct op; auto; right; discriminate).
      destruct D as [-> |Hne].
      - destruct k as [op'|op'| |]; simpl in Hk; try (intuition discriminate).
        subst op'. simpl in Hfr. unfold qret in Hfr. inversion Hfr; subst; clear Hfr. simpl in *.
        destruct Hg as (Hz & _). rewrite Hps in Hz. simpl in Hz.
        split; [apply Forall_upd; simpl; auto|].
        exists (MkU [] (u_closed q)). destruct Hr as (Hh & Hc). split; [|split].
        + eapply uh_done; eauto. apply u_underlying; auto.
        + split; simpl; auto. split; [|unfold dv_stored; simpl; apply skipn_nil].
          left; auto.
        + rewrite Hps. simpl. rewrite Hz. reflexivity.
      - pose proof (@frag_ok _ _ ct fifo_take (@dv_holds V) false (@dv_ok V) t e op k (sh c) q Hr Hk) as HF.
        simpl in Hfr. rewrite Hfr in HF.
        assert (Hpre : q_pre false tt op = true) by (destruct op; auto; congruence).
        specialize (HF Hpre).
        destruct o as [r|r ns'|cv k'|k'|]; simpl in HF; try contradiction; simpl.
        + destruct HF as ((q' & Hst & Hr') & _). split; [apply Forall_upd; simpl; auto|].
          exists q'. split; [eapply uh_done; eauto|]. split; auto.
          eapply pse_step; eauto.
        + destruct HF as ((q' & Hst & Hr') & _ & ->). split; [apply Forall_upd; simpl; auto|].
          exists q'. split; [eapply uh_done; eauto|]. split; auto.
          eapply pse_step; eauto.
        + destruct HF as (-> & _ & Hk' & _). split; [apply Forall_upd; simpl; auto|].
          exists q. auto. }
    all: try apply untouched_tl in Hg; destruct (HM Hg) as (HT & q & Hq & Hr & Hps);
      pose proof (Forall_nth_error HT Ht) as Hx; simpl in Hx.
    - split; [apply Forall_upd; simpl; auto|]. exists q. repeat split; auto; try apply Hr. constructor; auto.
    - assert (HT' : Forall tfit0 thr').
      { eapply woken_Forall; [eapply deliver_woken; eauto|apply tfit0_wake|auto]. }
      split; [apply Forall_upd; auto; destruct ns; simpl; auto|]. eauto.
    - split; [apply Forall_upd; simpl; auto|]. eauto.
    - split; [apply Forall_upd; simpl; eauto using kfit_wake|]. eauto.
    - split; [apply Forall_upd; simpl; eauto using kfit_intr|]. eauto.
    - split; [apply Forall_upd; simpl; eauto using kfit_intr|]. eauto.
  Qed.

  Lemma MInv_reachable n c : reachable P n (sq_new ct) tt c -> MInv c.
  Proof.
    apply reachable_inv with (Inv := MInv); [|apply MInv_step].
    intros _. split; [apply Forall_forall; intros x Hx; apply repeat_spec in Hx; subst; exact I|].
    exists (MkU [] false). split; [constructor|]. split; [|reflexivity].
    split; simpl; auto. apply (ok_new (dv_ok V)).
  Qed.
End Moved.
