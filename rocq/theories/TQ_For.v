(** * Proofs about pull_for: how long a timed pull may take (TQ_Model.v) *)

From Verif Require Import Monitor MonitorLemmas MonTrace SQ_Model TQ_Model TQ_Spec.
Set Implicit Arguments.

Lemma upd_same (A : Type) (l : list A) (i : nat) (x y : A) : nth_error l i = Some y -> nth_error (upd l i x) i = Some x.
Proof. intros H. apply nth_error_upd_same. apply nth_error_Some. rewrite H. discriminate. Qed.

Section For.
  Variable V : Type.
  Variables ph po : list (V * Z) -> list (V * Z).
  Variable poll : Z.
  Notation P := (tqprog ph po true poll).
  Notation conf := (cfg (tq V) (tk V) (top_ V) (tres V) scv unit).

  (** The deadline a continuation carries. *)
  Definition kdl (k : tk V) : option Z :=
    match k with
    | TkTop _ dl | TkInner _ dl | TkOuter _ dl _ => dl
    | TkInnerTO _ tp => Some tp
    | _ => None
    end.
  Definition gave_up (r : tres V) : Prop := r = TSt qs_timeout \/ r = TSt qs_not_ready.

  Definition dpost (tp : Z) (s0 : tq V) (o : tout V) : Prop :=
    let '(s', _, o') := o in
    (t_now s0 <= t_now s')%Z /\
    match o' with
    | ORet _ _ r | OFin _ r _ => gave_up r -> (tp <= t_now s')%Z
    | OSleep _ _ k => kdl k = Some tp /\ exists w, wakes_at k = Some w /\ (w <= tp)%Z
    | OYield _ _ _ => False
    | _ => True
    end.

  Lemma read_mono (s : tq V) ds : forall now s1 ds1, read_clock true s ds = (now, s1, ds1) ->
    now = t_now s1 /\ (t_now s <= t_now s1)%Z /\ t_data s1 = t_data s /\ t_closed s1 = t_closed s.
  Proof.
    unfold read_clock. intros now s1 ds1 E. injection E as E1 E2 E3. subst s1. cbn [t_now t_data t_closed].
    split; [auto|]. split; [|auto]. destruct ds; lia.
  Qed.

  Lemma gave_got e : ~ gave_up (TGot e).
  Proof. intros [H|H]; discriminate. Qed.

  Lemma checks_post op tp s0 s ds k :
    (t_now s0 <= t_now s)%Z ->
    (forall s2 ds2, (t_now s0 <= t_now s2)%Z -> dpost tp s0 (k s2 ds2)) ->
    dpost tp s0 (checks po true op (Some tp) s ds k).
  Proof.
    intros H0 Hk. unfold checks.
    destruct (reached true s ds) as [[b s1] ds1] eqn:Er.
    assert (H1 : (t_now s <= t_now s1)%Z).
    { unfold reached in Er. destruct (t_data s) as [|e d].
      - injection Er as _ <- _. lia.
      - destruct (read_clock true s ds) as [[nw sa] da] eqn:Ec. injection Er as _ <- _.
        destruct (read_mono Ec) as (_ & H & _). exact H. }
    destruct b.
    { unfold t_pull. destruct (pq_pull po (t_data s1)) as [[e d']|]; cbn.
      - split; [lia|]. intros Hg. destruct (gave_got Hg).
      - split; [lia|exact I]. }
    destruct (t_closed s1).
    { cbn. split; [lia|]. destruct op; intros [Hg|Hg]; discriminate. }
    unfold past. destruct (read_clock true s1 ds1) as [[nw s2] ds2] eqn:Ec.
    destruct (read_mono Ec) as (-> & H2 & _ & _).
    destruct (Z.leb_spec tp (t_now s2)) as [Hle|Hlt].
    - cbn. split; [lia|]. intros _. exact Hle.
    - apply Hk. lia.
  Qed.

  Lemma outer_post op tp s0 s ds : (t_now s0 <= t_now s)%Z ->
    dpost tp s0 (outer_wait true poll op (Some tp) s ds).
  Proof.
    intros H0. unfold outer_wait. destruct (t_data s) as [|e d]; cbn.
    - split; [exact H0|exact I].
    - split; [exact H0|]. split; [reflexivity|]. eexists. split; [reflexivity|]. lia.
  Qed.

  Lemma part2_post op tp s0 s ds : (t_now s0 <= t_now s)%Z ->
    dpost tp s0 (part2 po true poll op (Some tp) s ds).
  Proof. intros H0. apply checks_post; [exact H0|]. intros. apply outer_post. assumption. Qed.

  Lemma inner_post op tp s0 s ds : (t_now s0 <= t_now s)%Z ->
    dpost tp s0 (inner_wait po true poll op (Some tp) s ds).
  Proof.
    intros H0. unfold inner_wait. destruct (t_data s), (t_closed s); try (apply part2_post; exact H0).
    cbn. split; [exact H0|]. split; [reflexivity|]. exists tp. split; [reflexivity|lia].
  Qed.

  Lemma top_post op tp s0 s ds : (t_now s0 <= t_now s)%Z ->
    dpost tp s0 (loop_top po true poll op (Some tp) s ds).
  Proof. intros H0. apply checks_post; [exact H0|]. intros. apply inner_post. assumption. Qed.

  Lemma frag_dl t e k (s : tq V) tp : kdl k = Some tp -> dpost tp s (frag P t e k s).
  Proof.
    destruct e as [busy ds]. cbn [frag tqprog]. intros Hk.
    destruct k as [op|op dl|op dl|op tp'|op dl tm|]; cbn in Hk; try discriminate; unfold tfrag.
    - subst dl. apply top_post. lia.
    - subst dl. apply inner_post. lia.
    - injection Hk as ->. unfold inner_timed_out.
      destruct (read_clock true s ds) as [[nw s1] ds1] eqn:Ec.
      destruct (read_mono Ec) as (-> & H & _).
      destruct (tp <=? t_now s1)%Z; [apply part2_post|apply inner_post]; exact H.
    - subst dl. apply top_post. lia.
  Qed.

  Lemma frag_for t e d (s : tq V) : exists tp,
    (t_now s + d <= tp)%Z /\ dpost tp s (frag P t e (TkGo (TPullFor d)) s) /\
    (tp <= t_now (fst (fst (frag P t e (TkGo (TPullFor d)) s))) + d)%Z.
  Proof.
    destruct e as [busy ds]. cbn [frag tqprog]. unfold tfrag, t_op.
    destruct (read_clock true s ds) as [[nw s1] ds1] eqn:Ec.
    destruct (read_mono Ec) as (-> & H & _).
    exists (t_now s1 + d)%Z. split; [lia|].
    assert (G : forall s0 : tq V, (t_now s0 <= t_now s1)%Z ->
      dpost (t_now s1 + d) s0 (loop_top po true poll (TPullFor d) (Some (t_now s1 + d)%Z) s1 ds1)).
    { intros s0 H0. apply top_post. exact H0. }
    split; [apply G; exact H|].
    assert (G1 := G s1 (Z.le_refl _)).
    destruct (loop_top po true poll (TPullFor d) (Some (t_now s1 + d)%Z) s1 ds1) as [[s' ns] o].
    cbn in *. destruct G1 as [G1 _]. lia.
  Qed.

  (** The clock never goes back. *)
  Lemma now_checks op dl (s0 s : tq V) ds k :
    (t_now s0 <= t_now s)%Z ->
    (forall s2 ds2, (t_now s0 <= t_now s2)%Z -> (t_now s0 <= t_now (fst (fst (k s2 ds2))))%Z) ->
    (t_now s0 <= t_now (fst (fst (checks (V := V) po true op dl s ds k))))%Z.
  Proof.
    intros H0 Hk. unfold checks.
    destruct (reached true s ds) as [[b s1] ds1] eqn:Er.
    assert (H1 : (t_now s <= t_now s1)%Z).
    { unfold reached in Er. destruct (t_data s) as [|e d].
      - injection Er as _ <- _. lia.
      - destruct (read_clock true s ds) as [[nw sa] da] eqn:Ec. injection Er as _ <- _.
        destruct (read_mono Ec) as (_ & H & _). exact H. }
    destruct b.
    { unfold t_pull. destruct (pq_pull po (t_data s1)) as [[e d']|]; cbn; lia. }
    destruct (t_closed s1); [cbn; lia|].
    unfold past. destruct dl as [tp|].
    - destruct (read_clock true s1 ds1) as [[nw s2] ds2] eqn:Ec.
      destruct (read_mono Ec) as (-> & H2 & _ & _).
      destruct (tp <=? t_now s2)%Z; [cbn; lia|apply Hk; lia].
    - apply Hk. lia.
  Qed.

  Lemma now_part2 op dl (s0 s : tq V) ds : (t_now s0 <= t_now s)%Z ->
    (t_now s0 <= t_now (fst (fst (part2 (V := V) po true poll op dl s ds))))%Z.
  Proof.
    intros H. apply now_checks; [exact H|]. intros s2 ds2 H2. unfold outer_wait.
    destruct (t_data s2); cbn; exact H2.
  Qed.
  Lemma now_inner op dl (s0 s : tq V) ds : (t_now s0 <= t_now s)%Z ->
    (t_now s0 <= t_now (fst (fst (inner_wait (V := V) po true poll op dl s ds))))%Z.
  Proof.
    intros H. unfold inner_wait. destruct (t_data s), (t_closed s); try (apply now_part2; exact H). exact H.
  Qed.
  Lemma now_top op dl (s0 s : tq V) ds : (t_now s0 <= t_now s)%Z ->
    (t_now s0 <= t_now (fst (fst (loop_top (V := V) po true poll op dl s ds))))%Z.
  Proof. intros H. apply now_checks; [exact H|]. intros. apply now_inner. assumption. Qed.

  Lemma now_try (s : tq V) ds : (t_now s <= t_now (fst (fst (t_try_pull po true s ds))))%Z.
  Proof.
    unfold t_try_pull. destruct (reached true s ds) as [[b s1] ds1] eqn:Er.
    assert (H1 : (t_now s <= t_now s1)%Z).
    { unfold reached in Er. destruct (t_data s) as [|e d].
      - injection Er as _ <- _. lia.
      - destruct (read_clock true s ds) as [[nw sa] da] eqn:Ec. injection Er as _ <- _.
        destruct (read_mono Ec) as (_ & H & _). exact H. }
    destruct b.
    { unfold t_pull. destruct (pq_pull po (t_data s1)) as [[e d']|]; cbn; lia. }
    destruct (t_closed s1); cbn; lia.
  Qed.

  Lemma frag_now t e k (s : tq V) : (t_now s <= t_now (fst (fst (frag P t e k s))))%Z.
  Proof.
    destruct e as [busy ds]. cbn [frag tqprog]. unfold tfrag.
    destruct k as [op|op dl|op dl|op tp|op dl tm|].
    - destruct op; cbn [t_op]; try (cbn; lia); try (apply now_top; lia).
      + unfold t_push. destruct (t_closed s); cbn; lia.
      + unfold t_push. destruct (t_closed s); cbn; lia.
      + apply now_try.
      + destruct busy; [cbn; lia|apply now_try].
      + destruct (read_clock true s ds) as [[nw s1] ds1] eqn:Ec.
        destruct (read_mono Ec) as (-> & H & _). apply now_top. exact H.
    - apply now_top. lia.
    - apply now_inner. lia.
    - unfold inner_timed_out. destruct (read_clock true s ds) as [[nw s1] ds1] eqn:Ec.
      destruct (read_mono Ec) as (-> & H & _).
      destruct (tp <=? t_now s1)%Z; [apply now_part2|apply now_inner]; exact H.
    - apply now_top. lia.
    - cbn. lia.
  Qed.

  Lemma step_now c c' lb : step P c lb = Some c' -> (t_now (sh c) <= t_now (sh c'))%Z.
  Proof.
    intros Hs. apply step_inv in Hs.
    destruct Hs as
     [t l op Ht Hp ->|t ps e l op k s' ns o thr' Ht Hfr Hd ->|t p l n ns thr' Ht Hd ->
     |t l op cv k Ht ->|t l op cv k k' Ht Hk ->|t l op cv k k' Ht Hk ->|t l op k k' Ht Hk ->]; cbn [sh]; try lia.
    pose proof (frag_now t e k (sh c)) as H. rewrite Hfr in H. exact H.
  Qed.

  (** Where a thread inside pull_for(d) called no earlier than [T0] can be. *)
  Definition fork (T0 d : Z) (k : tk V) : Prop :=
    k = TkGo (TPullFor d) \/ k = TkIntr \/ exists tp, kdl k = Some tp /\ (T0 + d <= tp)%Z.
  Definition inside (T0 d : Z) (x : tstat (tk V) (top_ V) scv unit) : Prop :=
    match x with
    | Ready _ _ op k | Asleep _ op _ k => op = TPullFor d /\ fork T0 d k
    | _ => False
    end.

  Lemma fork_timeout T0 d k k' : fork T0 d k -> t_on_timeout k = Some k' -> fork T0 d k'.
  Proof.
    intros [->|[->|(tp & Hk & Hle)]] H; try discriminate H.
    destruct k as [op|op dl|op dl|op tp'|op dl tm|]; cbn in H, Hk; try discriminate.
    - subst dl. injection H as <-. right. right. exists tp. auto.
    - subst dl. injection H as <-. right. right. exists tp. auto.
  Qed.
  Lemma fork_intr T0 d k k' : t_on_intr k = Some k' -> fork T0 d k'.
  Proof. intros H. destruct k; cbn in H; try discriminate; injection H as <-; right; left; reflexivity. Qed.

  Definition quiet (t : nat) (h : list (event (top_ V) (tres V))) : Prop := forall op r, ~ In (EDone t op r) h.

  Lemma run_frag_cases T0 d t e k s s' ns o :
    fork T0 d k -> (T0 <= t_now s)%Z -> frag P t e k s = (s', ns, o) ->
    match o with
    | ORet _ _ r | OFin _ r _ => gave_up r -> (T0 + d <= t_now s')%Z
    | OSleep _ _ k' => fork T0 d k'
    | OYield _ _ _ => False
    | _ => True
    end.
  Proof.
    intros Hf HT Hfr. destruct Hf as [->|[->|(tp & Hk & Hle)]].
    - destruct (frag_for t e d s) as (tp & H1 & H2 & _). rewrite Hfr in H2. cbn in H2. destruct H2 as [H2 H3].
      destruct o as [r|r ns'|cv k'|k'|]; cbn in *; auto.
      + intros Hg. specialize (H3 Hg). lia.
      + intros Hg. specialize (H3 Hg). lia.
      + destruct H3 as [H3 _]. right. right. exists tp. split; [exact H3|lia].
    - destruct e as [busy ds]. injection Hfr as <- <- <-. intros [H|H]; discriminate.
    - pose proof (frag_dl t e k s Hk) as H2. rewrite Hfr in H2. cbn in H2. destruct H2 as [H2 H3].
      destruct o as [r|r ns'|cv k'|k'|]; cbn in *; auto.
      + intros Hg. specialize (H3 Hg). lia.
      + intros Hg. specialize (H3 Hg). lia.
      + destruct H3 as [H3 _]. right. right. exists tp. split; [exact H3|lia].
  Qed.

  Lemma woken_inside T0 d l l' t x : woken_rel (K:=tk V) (Op:=top_ V) (C:=scv) (L:=unit) l l' -> nth_error l t = Some x -> inside T0 d x ->
    exists y, nth_error l' t = Some y /\ inside T0 d y.
  Proof.
    intros [_ Hw] Hx Hi. destruct (Hw _ _ Hx) as [H|[Ha H]]; [eauto|].
    exists (wake x). split; [exact H|]. destruct x; cbn in *; auto.
  Qed.

  Lemma deliver_woken n p (l l' : list (tstat (tk V) (top_ V) scv unit)) : deliver P n p l = Some l' -> woken_rel l l'.
  Proof.
    intros H. apply (@deliver_all_woken _ _ _ _ _ _ _ P [n] [p]). cbn [deliver_all hd]. rewrite H. reflexivity.
  Qed.

  Lemma inside_step T0 d t c c' lb x :
    step P c lb = Some c' -> (T0 <= t_now (sh c))%Z ->
    nth_error (thr c) t = Some x -> inside T0 d x ->
    (exists y, nth_error (thr c') t = Some y /\ inside T0 d y) /\ (forall op r, hist c' <> EDone t op r :: hist c) \/
    nth_error (thr c') t = Some (Crashed (tk V) (top_ V) scv unit) \/
    exists r, hist c' = EDone t (TPullFor d) r :: hist c /\ (gave_up r -> (T0 + d <= t_now (sh c'))%Z).
  Proof.
    intros Hs HT Hx Hi. apply step_inv in Hs.
    destruct Hs as
     [u l op Ht Hp ->|u ps e l op k s' ns o thr' Ht Hfr Hd ->|u p l n ns thr' Ht Hd ->
     |u l op cv k Ht ->|u l op cv k k' Ht Hk ->|u l op cv k k' Ht Hk ->|u l op k k' Ht Hk ->]; cbn [sh thr hist].
    all: destruct (Nat.eq_dec u t) as [->|Hne].
    all: try (rewrite Hx in Ht; injection Ht as ->).
    all: assert (Hcyc : forall (h : list (event (top_ V) (tres V))) ev, h <> ev :: h)
      by (intros h ev Hh; apply (f_equal (@length _)) in Hh; cbn in Hh; lia).
    - contradiction Hi.
    - left. split; [exists x; rewrite nth_error_upd_other by auto; auto|]. intros; discriminate.
    - cbn in Hi. destruct Hi as [-> Hf]. pose proof (@run_frag_cases T0 d t e k (sh c) s' ns o Hf HT Hfr) as Hc.
      pose proof (deliver_all_woken Hd) as Hw.
      assert (Hx' : exists y, nth_error thr' t = Some y).
      { destruct Hw as [_ Hw]. destruct (Hw _ _ Hx) as [H|[_ H]]; eauto. }
      destruct Hx' as [y Hy].
      destruct o as [r|r ns'|cv k'|k'|]; cbn [after fst snd].
      + right. right. exists r. split; [reflexivity|exact Hc].
      + right. right. exists r. split; [reflexivity|exact Hc].
      + left. split; [|intros; apply Hcyc]. eexists. rewrite (upd_same _ _ _ Hy). split; [reflexivity|].
        split; [reflexivity|exact Hc].
      + contradiction Hc.
      + right. left. rewrite (upd_same _ _ _ Hy). reflexivity.
    - pose proof (deliver_all_woken Hd) as Hw. left. split.
      + rewrite nth_error_upd_other by auto. eapply woken_inside; eauto.
      + intros op' r'. destruct o; cbn [after snd]; try (apply Hcyc); intros Hh; injection Hh; congruence.
    - contradiction Hi.
    - left. split; [|intros; apply Hcyc]. rewrite nth_error_upd_other by auto.
      eapply woken_inside; eauto. eapply deliver_woken; eauto.
    - left. split; [|intros; apply Hcyc]. eexists. rewrite (upd_same _ _ _ Hx). split; [reflexivity|exact Hi].
    - left. split; [|intros; apply Hcyc]. exists x. rewrite nth_error_upd_other by auto. auto.
    - left. split; [|intros; apply Hcyc]. eexists. rewrite (upd_same _ _ _ Hx). split; [reflexivity|].
      destruct Hi as [Ho Hi]. split; [exact Ho|]. eapply fork_timeout; [exact Hi|exact Hk].
    - left. split; [|intros; apply Hcyc]. exists x. rewrite nth_error_upd_other by auto. auto.
    - left. split; [|intros; apply Hcyc]. eexists. rewrite (upd_same _ _ _ Hx). split; [reflexivity|].
      destruct Hi as [Ho Hi]. split; [exact Ho|]. eapply fork_intr; exact Hk.
    - left. split; [|intros; apply Hcyc]. exists x. rewrite nth_error_upd_other by auto. auto.
    - left. split; [|intros; apply Hcyc]. eexists. rewrite (upd_same _ _ _ Hx). split; [reflexivity|].
      destruct Hi as [Ho Hi]. split; [exact Ho|]. eapply fork_intr; exact Hk.
    - left. split; [|intros; apply Hcyc]. exists x. rewrite nth_error_upd_other by auto. auto.
  Qed.

  Lemma crashed_stays t c c' lb : step P c lb = Some c' ->
    nth_error (thr c) t = Some (Crashed (tk V) (top_ V) scv unit) ->
    nth_error (thr c') t = Some (Crashed (tk V) (top_ V) scv unit) /\ forall op r, hist c' <> EDone t op r :: hist c.
  Proof.
    intros Hs Hx. apply step_inv in Hs.
    assert (Hcyc : forall (h : list (event (top_ V) (tres V))) ev, h <> ev :: h)
      by (intros h ev Hh; apply (f_equal (@length _)) in Hh; cbn in Hh; lia).
    assert (Hw : forall l' : list (tstat (tk V) (top_ V) scv unit), woken_rel (thr c) l' -> nth_error l' t = Some (Crashed (tk V) (top_ V) scv unit)).
    { intros l' [_ Hw]. destruct (Hw _ _ Hx) as [H|[Ha _]]; [exact H|discriminate Ha]. }
    destruct Hs as
     [u l op Ht Hp ->|u ps e l op k s' ns o thr' Ht Hfr Hd ->|u p l n ns thr' Ht Hd ->
     |u l op cv k Ht ->|u l op cv k k' Ht Hk ->|u l op cv k k' Ht Hk ->|u l op k k' Ht Hk ->]; cbn [sh thr hist].
    all: assert (Hne : u <> t) by (intros ->; rewrite Hx in Ht; discriminate).
    all: rewrite nth_error_upd_other by auto; split; [auto|intros op' r'; try apply Hcyc; try discriminate].
    - apply Hw. eapply deliver_all_woken; eauto.
    - destruct o; cbn [after snd]; try (apply Hcyc); intros Hh; injection Hh; congruence.
    - apply Hw. eapply deliver_woken; eauto.
  Qed.

  Definition J (T0 d : Z) (t : nat) (c : conf) : Prop :=
    ((exists x, nth_error (thr c) t = Some x /\ inside T0 d x) \/
     nth_error (thr c) t = Some (Crashed (tk V) (top_ V) scv unit)) /\ (T0 <= t_now (sh c))%Z.

  Lemma J_step T0 d t c c' lb : J T0 d t c -> step P c lb = Some c' ->
    (forall op r, hist c' <> EDone t op r :: hist c) -> J T0 d t c'.
  Proof.
    intros [Hj HT] Hs Hno. split; [|pose proof (step_now _ _ Hs); lia].
    destruct Hj as [(x & Hx & Hi)|Hc].
    - destruct (@inside_step T0 d t c c' lb x Hs HT Hx Hi) as [[H _]|[H|(r & H & _)]]; auto.
      destruct (Hno _ _ H).
    - right. apply (@crashed_stays t c c' lb Hs Hc).
  Qed.

  (** A pull_for(d) that gives up has waited at least [d]. *)
  Lemma for_not_early c0 c1 ls c lb c' t d r h :
    step P c0 (LCall _ t (TPullFor d)) = Some c1 ->
    run P c1 ls = Some c -> hist c = h ++ hist c1 -> quiet t h ->
    step P c lb = Some c' -> hist c' = EDone t (TPullFor d) r :: hist c -> gave_up r ->
    (t_now (sh c0) + d <= t_now (sh c'))%Z.
  Proof.
    intros H0 Hr Hh Hq Hs Hd Hg.
    set (T0 := t_now (sh c0)).
    assert (HJ : J T0 d t c1).
    { split; [|apply (step_now _ _ H0)]. left.
      cbn [step] in H0. destruct (nth_error (thr c0) t) as [[l|l o k|l o cv k|l n|]|] eqn:Et; try discriminate.
      destruct (pre P l (TPullFor d)); [|discriminate]. injection H0 as <-. cbn [thr].
      eexists. rewrite (upd_same _ _ _ Et). split; [reflexivity|]. split; [reflexivity|]. left. reflexivity. }
    clear H0.
    assert (G : J T0 d t c).
    { clear Hs Hd. revert c1 h Hr Hh Hq HJ. induction ls as [|lb0 ls IH]; intros c1 h Hr Hh Hq HJ.
      - cbn in Hr. injection Hr as <-. exact HJ.
      - cbn [run] in Hr. destruct (step P c1 lb0) as [c2|] eqn:E2; [|discriminate].
        destruct (run_hist _ _ Hr) as [h2 Hh2].
        assert (Hin : forall op r', hist c2 <> EDone t op r' :: hist c1).
        { intros op r' E. rewrite E in Hh2. rewrite Hh in Hh2.
          change (EDone t op r' :: hist c1) with ([EDone t op r'] ++ hist c1) in Hh2.
          rewrite app_assoc in Hh2. apply app_inv_tail in Hh2. apply (Hq op r'). rewrite Hh2.
          apply in_or_app. right. left. reflexivity. }
        apply (IH c2 h2 Hr Hh2).
        + intros op r' Hi. destruct (@step_hist _ _ _ _ _ _ _ _ _ _ _ E2) as [E|[(u & o & E)|(u & o & r2 & E)]].
          * rewrite E, Hh in Hh2. apply app_inv_tail in Hh2. subst h2. exact (Hq _ _ Hi).
          * rewrite E, Hh in Hh2. change (ECall (tres V) u o :: hist c1) with ([ECall (tres V) u o] ++ hist c1) in Hh2.
            rewrite app_assoc in Hh2. apply app_inv_tail in Hh2. apply (Hq op r'). rewrite Hh2. apply in_or_app. auto.
          * rewrite E, Hh in Hh2. change (EDone u o r2 :: hist c1) with ([EDone u o r2] ++ hist c1) in Hh2.
            rewrite app_assoc in Hh2. apply app_inv_tail in Hh2. apply (Hq op r'). rewrite Hh2. apply in_or_app. auto.
        + eapply J_step; eauto. }
    destruct G as [[(x & Hx & Hi)|Hc] HT].
    - destruct (@inside_step T0 d t c c' lb x Hs HT Hx Hi) as [[_ H]|[H|(r' & H & Hge)]].
      + destruct (H _ _ Hd).
      + exfalso. apply step_inv in Hs.
        destruct Hs as
         [u l op Ht Hp ->|u ps e l op k s' ns o thr' Ht Hfr Hdl ->|u p l n ns thr' Ht Hdl ->
         |u l op cv k Ht ->|u l op cv k k' Ht Hk ->|u l op cv k k' Ht Hk ->|u l op k k' Ht Hk ->]; cbn [hist thr] in Hd, H;
          try discriminate Hd;
          try (apply (f_equal (@length _)) in Hd; cbn in Hd; lia).
        assert (Hy : exists y, nth_error thr' u = Some y).
        { destruct (deliver_all_woken Hdl) as [_ Hw]. destruct (Hw _ _ Ht) as [E|[_ E]]; eauto. }
        destruct Hy as [y Hy].
        destruct o as [r'|r' ns'|cv k'|k'|]; cbn [after fst snd] in Hd, H;
          try (apply (f_equal (@length _)) in Hd; cbn in Hd; lia);
          injection Hd as -> _ _; rewrite (upd_same _ _ _ Hy) in H; try discriminate.
        destruct ns'; discriminate H.
      + rewrite Hd in H. injection H as <-. exact (Hge Hg).
    - exfalso. destruct (@crashed_stays t c c' lb Hs Hc) as [_ H]. exact (H _ _ Hd).
  Qed.

  (** The time by which a timed pull made or continued at [now] must wake up. *)
  Definition until_of (now : Z) (op : top_ V) : option Z :=
    match op with TPullFor d => Some (now + d)%Z | TPullUntil tp => Some tp | _ => None end.

  Definition bounded (now : Z) (x : tstat (tk V) (top_ V) scv unit) : Prop :=
    match x with
    | Ready _ _ op k =>
        forall u, until_of now op = Some u ->
        k = TkGo op \/ k = TkIntr \/ exists tp, kdl k = Some tp /\ (tp <= u)%Z
    | Asleep _ op _ k =>
        forall u, until_of now op = Some u ->
        exists tp, kdl k = Some tp /\ (tp <= u)%Z /\ exists w, wakes_at k = Some w /\ (w <= tp)%Z
    | _ => True
    end.

  Lemma until_mono now now' op u' : (now <= now')%Z -> until_of now' op = Some u' ->
    exists u, until_of now op = Some u /\ (u <= u')%Z.
  Proof.
    intros Hle. destruct op; cbn; try discriminate; intros H; injection H as <-; eexists; (split; [reflexivity|lia]).
  Qed.
  Lemma bounded_mono now now' x : (now <= now')%Z -> bounded now x -> bounded now' x.
  Proof.
    intros Hle H. destruct x as [l|l o k|l o cv k|l ns|]; cbn in *; auto; intros u' Hu';
      destruct (until_mono _ Hle Hu') as (u & Hu & Hle').
    - destruct (H u Hu) as [H0|[H0|(tp & H1 & H2)]]; auto. right. right. exists tp. split; [auto|lia].
    - destruct (H u Hu) as (tp & H1 & H2 & H3). exists tp. split; [auto|]. split; [lia|auto].
  Qed.
  Lemma bounded_wake now x : bounded now x -> bounded now (wake x).
  Proof.
    destruct x as [l|l o k|l o cv k|l ns|]; cbn; auto. intros H u Hu.
    destruct (H u Hu) as (tp & H1 & H2 & _). right. right. eauto.
  Qed.
  Lemma woken_bounded now l l' : woken_rel l l' -> Forall (bounded now) l -> Forall (bounded now) l'.
  Proof.
    intros Hw HF. eapply woken_Forall; [exact Hw| |exact HF]. intros x _. apply bounded_wake.
  Qed.

  Lemma frag_start t e (s : tq V) op u : until_of (t_now (fst (fst (frag P t e (TkGo op) s)))) op = Some u ->
    exists tp, (tp <= u)%Z /\ dpost tp s (frag P t e (TkGo op) s).
  Proof.
    destruct op as [x d|x d| | | | |tp|d| | | | |]; cbn [until_of]; try discriminate; intros H; injection H as <-.
    - exists tp. split; [lia|]. destruct e as [busy ds]. cbn [frag tqprog]. apply top_post. lia.
    - destruct (frag_for t e d s) as (tp & _ & H2 & H3). exists tp. auto.
  Qed.

  Lemma bounded_inv n now0 c : reachable P n (tq_new V now0) tt c -> Forall (bounded (t_now (sh c))) (thr c).
  Proof.
    revert c. apply reachable_ind'.
    - cbn. apply Forall_forall. intros x Hx. apply repeat_spec in Hx. subst x. exact I.
    - intros c c' _ HF Hs.
      destruct Hs as
       [t l op Ht Hp ->|t ps e l op k s' ns o thr' Ht Hfr Hd ->|t p l m ns thr' Ht Hd ->
       |t l op cv k Ht ->|t l op cv k k' Ht Hk ->|t l op cv k k' Ht Hk ->|t l op k k' Ht Hk ->]; cbn [sh thr].
      + apply Forall_upd; [exact HF|]. cbn. auto.
      + pose proof (frag_now t e k (sh c)) as Hn. rewrite Hfr in Hn. cbn in Hn.
        assert (HF' : Forall (bounded (t_now s')) thr').
        { eapply woken_bounded; [eapply deliver_all_woken; eauto|].
          eapply Forall_impl; [|exact HF]. intros x. apply bounded_mono. exact Hn. }
        apply Forall_upd; [exact HF'|].
        pose proof (Forall_nth_error HF Ht) as Hb. cbn in Hb.
        assert (Hmain : forall u, until_of (t_now s') op = Some u ->
          (k = TkIntr /\ o = ORet (tk V) scv TThrowIntr) \/
          exists tp, (tp <= u)%Z /\ dpost tp (sh c) (s', ns, o)).
        { intros u Hu. destruct (until_mono _ Hn Hu) as (u0 & Hu0 & Hle).
          destruct (Hb u0 Hu0) as [->|[->|(tp & H1 & H2)]].
          - right. rewrite <- Hfr. apply frag_start. rewrite Hfr. exact Hu.
          - left. destruct e as [busy ds]. cbn in Hfr. injection Hfr as _ _ <-. auto.
          - right. exists tp. split; [lia|]. rewrite <- Hfr. apply frag_dl. exact H1. }
        destruct o as [r|r ns'|cv k'|k'|]; cbn [after fst].
        * exact I.
        * destruct ns'; exact I.
        * intros u Hu. destruct (Hmain u Hu) as [[_ E]|(tp & Hle & H3)]; [discriminate E|].
          destruct H3 as (_ & H4 & H5).
          exists tp. auto.
        * intros u Hu. destruct (Hmain u Hu) as [[_ E]|(tp & Hle & H3)]; [discriminate E|destruct H3 as [_ []]].
        * exact I.
      + apply Forall_upd; [eapply woken_bounded; [eapply deliver_woken; eauto|exact HF]|]. destruct ns; exact I.
      + apply Forall_upd; [exact HF|]. exact (bounded_wake _ (Asleep l op cv k) (Forall_nth_error HF Ht)).
      + apply Forall_upd; [exact HF|]. pose proof (Forall_nth_error HF Ht) as Hb. cbn in Hb |- *.
        intros u Hu. destruct (Hb u Hu) as (tp & H1 & H2 & _). right. right. exists tp. split; [|exact H2].
        destruct k as [o|o dl|o dl|o tp'|o dl tm|]; cbn in Hk, H1; try discriminate.
        * subst dl. injection Hk as <-. reflexivity.
        * subst dl. injection Hk as <-. reflexivity.
      + apply Forall_upd; [exact HF|]. cbn. intros u0 Hu0.
        right. left. destruct k; cbn in Hk; try discriminate; injection Hk as <-; reflexivity.
      + apply Forall_upd; [exact HF|]. cbn. intros u0 Hu0.
        right. left. destruct k; cbn in Hk; try discriminate; injection Hk as <-; reflexivity.
  Qed.

  Lemma timed_bounded n now0 c l op cv k : reachable P n (tq_new V now0) tt c -> In (Asleep l op cv k) (thr c) ->
    forall u, until_of (t_now (sh c)) op = Some u -> exists w, wakes_at k = Some w /\ (w <= u)%Z.
  Proof.
    intros Hr Hin u Hu. pose proof (bounded_inv Hr) as HF. rewrite Forall_forall in HF. specialize (HF _ Hin).
    cbn in HF. destruct (HF u Hu) as (tp & _ & H2 & w & H3 & H4). exists w. split; [exact H3|lia].
  Qed.
End For.
