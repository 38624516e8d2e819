(** * Proofs about boost::latch *)

From Verif Require Import MonTrace LT_Model LT_Spec.

Notation tst := (tstat lk lop lcv unit).

Definition okthr (g : nat) (x : tst) : Prop :=
  match x with
  | Ready _ _ op (KStart op') => op' = op
  | Ready _ _ op (KWaiting g') => g' <= g /\ (op = LWait \/ op = LSync)
  | Ready _ _ op (KTimed g') | Ready _ _ op (KDeadline g') => g' <= g /\ op = LWaitTimed
  | Ready _ _ op KIntr => waits op = true
  | Asleep _ op _ (KWaiting g') => g' = g /\ (op = LWait \/ op = LSync)
  | Asleep _ op _ (KTimed g') => g' = g /\ op = LWaitTimed
  | Asleep _ _ _ _ => False
  | Tail _ _ _ _ => False
  | _ => True
  end.

Lemma okthr_wake g x : is_asleep x = true -> okthr g x -> okthr g (wake x).
Proof. destruct x as [| |l op c []| |]; simpl; intuition lia. Qed.

Lemma okthr_le g g' x : is_asleep x = false -> g <= g' -> okthr g x -> okthr g' x.
Proof. destruct x as [|l op []| | |]; simpl; try discriminate; intuition lia. Qed.

Definition awake (x : tst) : Prop := is_asleep x = false.

Lemma deliver_wakes ps l l' :
  deliver_all ltprog [NAll LCond] ps l = Some l' -> Forall awake l'.
Proof.
  simpl. injection 1 as <-. apply Forall_forall. intros x Hx. apply in_map_iff in Hx as (y & <- & _).
  unfold awake, wake_if. destruct y; reflexivity.
Qed.

(** What a fragment does, in one place. *)
Lemma lfrag_cases t e k s s' ns o : lfrag t e k s = (s', ns, o) ->
  (ns = [] /\ l_gen s' = l_gen s) \/
  (ns = [NAll LCond] /\ l_count s = 1 /\ s' = MkLatch 0 (S (l_gen s)) /\ k <> KIntr /\
   match o with OSleep _ _ _ | OYield _ _ _ | OUB _ _ _ | OFin _ _ _ => False | ORet _ _ _ => True end).
Proof.
  destruct k as [[]| | | |]; simpl; unfold count_down_;
    destruct (l_count s) as [|[|c]] eqn:Hc; simpl;
    repeat match goal with |- context [if ?b then _ else _] => destruct b end;
    intros H; inversion H; subst; clear H; auto; right; repeat split; auto; discriminate.
Qed.

Ltac facts :=
  repeat match goal with
  | H : negb _ = false |- _ => apply negb_false_iff, Nat.eqb_eq in H
  | H : negb _ = true |- _ => apply negb_true_iff, Nat.eqb_neq in H
  | H : (_ =? _) = true |- _ => apply Nat.eqb_eq in H
  | H : (_ =? _) = false |- _ => apply Nat.eqb_neq in H
  | H : (_ <? _) = true |- _ => apply Nat.ltb_lt in H
  | H : (_ <? _) = false |- _ => apply Nat.ltb_ge in H
  end.

(** ** The invariant for every use, including reset *)

Definition Inv1 (c : ltconf) : Prop := Forall (okthr (l_gen (sh c))) (thr c).

Lemma okthr_after t e l op k s s' ns o h :
  okthr (l_gen s) (Ready lcv l op k) -> lfrag t e k s = (s', ns, o) ->
  okthr (l_gen s') (fst (after ltprog t l op o h)).
Proof.
  destruct k as [op'| | | |]; simpl.
  1: intros ->; destruct op; simpl; unfold count_down_; destruct (l_count s) as [|[|c]] eqn:Hc; simpl.
  all: repeat match goal with |- context [if ?b then _ else _] => destruct b eqn:? end;
    intros; repeat match goal with H : (_, _, _) = _ |- _ => inversion H; subst; clear H end; simpl; auto.
  all: facts; intuition.
Qed.

Lemma Inv1_step c c' : Inv1 c -> stepcase ltprog c c' -> Inv1 c'.
Proof.
  unfold Inv1. intros HI Hs. destruct Hs as
   [t l op Ht Hp ->|t ps e l op k s' ns o thr' Ht Hfr Hd ->|t p l n ns thr' Ht Hd ->
   |t l op cv k Ht ->|t l op cv k k' Ht Hk ->|t l op cv k k' Ht Hk ->|t l op k k' Ht Hk ->];
    cbn [sh thr]; pose proof (Forall_nth_error HI Ht) as Hx; try (apply Forall_upd; [exact HI|]).
  - reflexivity.
  - apply Forall_upd; [|eapply okthr_after; eauto].
    cbn [frag ltprog] in Hfr. destruct (lfrag_cases _ _ _ _ _ _ _ Hfr) as [[-> Hg]|(-> & _ & -> & _)].
    + simpl in Hd. injection Hd as <-. rewrite Hg. exact HI.
    + simpl. pose proof (deliver_wakes _ _ _ Hd) as Haw.
      assert (HI' : Forall (okthr (l_gen (sh c))) thr').
      { eapply woken_Forall; [eapply deliver_all_woken; eauto| |exact HI]. intros x. apply okthr_wake. }
      rewrite Forall_forall in *. intros x Hin. eapply okthr_le; [apply Haw; auto| |apply HI'; auto]. lia.
  - simpl in Hx. contradiction.
  - apply (okthr_wake _ (Asleep l op cv k) eq_refl Hx).
  - destruct k; try discriminate. injection Hk as <-. simpl in *. intuition lia.
  - destruct k; try discriminate; injection Hk as <-; simpl in *.
    + destruct Hx as [_ [-> | ->]]; reflexivity.
    + destruct Hx as [_ ->]; reflexivity.
  - destruct k; try discriminate; injection Hk as <-; simpl in *.
    + destruct Hx as [_ [-> | ->]]; reflexivity.
    + destruct Hx as [_ ->]; reflexivity.
Qed.

Lemma Inv1_reachable n m c : reachable ltprog n (latch_new m) tt c -> Inv1 c.
Proof.
  apply (reachable_inv ltprog Inv1).
  - apply Forall_forall. intros x Hx. apply repeat_spec in Hx. subst x. exact I.
  - apply Inv1_step.
Qed.

(** ** Without reset *)

Definition pendw (x : tst) : nat :=
  match x with Ready _ _ op (KStart _) => if counts_down op then 1 else 0 | _ => 0 end.
Definition insw (x : tst) : nat :=
  match x with Ready _ _ op _ | Asleep _ op _ _ => if counts_down op then 1 else 0 | _ => 0 end.
Definition zerog (m : nat) (k : lk) : Prop :=
  match k with KWaiting g | KTimed g | KDeadline g => g = 0 /\ 0 < m | _ => True end.
Definition noreset1 (m : nat) (x : tst) : Prop :=
  match x with
  | Ready _ _ op k | Asleep _ op _ k => match op with LReset _ => False | _ => zerog m k end
  | _ => True end.

Definition Num (m : nat) (c : ltconf) : Prop :=
  let s := sh c in
  Forall (noreset1 m) (thr c) /\ l_count s <= m /\
  m - l_count s + sumw pendw (thr c) <= started (hist c) /\
  (0 < l_count s -> started (hist c) = m - l_count s + sumw pendw (thr c)) /\
  (0 < l_count s -> l_gen s = 0) /\ (0 < m -> l_count s = 0 -> l_gen s = 1) /\
  returned (hist c) + sumw insw (thr c) <= started (hist c).

Definition Inv2 (m : nat) (c : ltconf) : Prop := Inv1 c /\ (no_reset (hist c) -> Num m c).

Lemma no_reset_tail e h : no_reset (e :: h) -> no_reset h.
Proof. intros H t n Hin. apply (H t n). right; auto. Qed.

Lemma insw_wake x : is_asleep x = true -> insw (wake x) = insw x.
Proof. destruct x; simpl; auto. Qed.
Lemma pendw_wake g x : okthr g x -> pendw (wake x) = pendw x.
Proof. destruct x as [| |l op c []| |]; simpl; tauto. Qed.

Lemma pend_woken g l l' : Forall (okthr g) l -> woken_rel l l' -> sumw pendw l' = sumw pendw l.
Proof.
  intros HF [Hlen H]. revert l' Hlen H.
  induction HF as [|x l Hx HF IH]; intros [|y l'] Hlen H; simpl in *; try discriminate; auto.
  assert (pendw y = pendw x).
  { destruct (H 0 x eq_refl) as [H0|[Ha H0]]; simpl in H0; injection H0 as ->; auto.
    eapply pendw_wake; eauto. }
  rewrite (IH l'); [lia|lia|]. intros i z Hz. apply (H (Datatypes.S i) z Hz).
Qed.

Lemma noreset_wake m x : is_asleep x = true -> noreset1 m x -> noreset1 m (wake x).
Proof. destruct x; simpl; auto. Qed.

Lemma started_call t op h : started (ECall lres t op :: h) = (if counts_down op then 1 else 0) + started h.
Proof. unfold started; simpl; destruct (counts_down op); auto. Qed.
Lemma started_done t op r h : started (EDone t op r :: h) = started h.
Proof. reflexivity. Qed.
Lemma returned_call t op h : returned (ECall lres t op :: h) = returned h.
Proof. reflexivity. Qed.
Lemma returned_done t op r h : returned (EDone t op r :: h) = (if counts_down op then 1 else 0) + returned h.
Proof. unfold returned; simpl; destruct (counts_down op); auto. Qed.

Lemma Num_noop m c (x y : tst) t h' s' l' :
  s' = sh c -> l' = upd (thr c) t y -> h' = hist c ->
  nth_error (thr c) t = Some x -> pendw y = pendw x -> insw y = insw x -> noreset1 m y ->
  Num m c -> Num m (MkCfg s' l' h').
Proof.
  intros -> -> -> Hx Hp Hi Hn (H1 & H2 & H3 & H4 & H5 & H6 & H7).
  pose proof (sumw_upd pendw y Hx). pose proof (sumw_upd insw y Hx).
  unfold Num; cbn [sh thr hist]. split; [apply Forall_upd; auto|].
  repeat split; auto; try lia.
Qed.

Lemma noreset_moved m op k k' : match op with LReset _ => False | _ => zerog m k end -> zerog m k' ->
  match op with LReset _ => False | _ => zerog m k' end.
Proof. destruct op; auto. Qed.

Lemma Inv2_step m c c' : Inv2 m c -> stepcase ltprog c c' -> Inv2 m c'.
Proof.
  intros [HI1 HN] Hs. split; [eapply Inv1_step; eauto|]. intros Hnr.
  unfold Inv1 in HI1. destruct Hs as
   [t l op Ht Hp ->|t ps e l op k s' ns o thr' Ht Hfr Hd ->|t p l n ns thr' Ht Hd ->
   |t l op cv k Ht ->|t l op cv k k' Ht Hk ->|t l op cv k k' Ht Hk ->|t l op k k' Ht Hk ->];
    cbn [sh thr hist] in *; pose proof (Forall_nth_error HI1 Ht) as Hx.
  - specialize (HN (no_reset_tail _ _ Hnr)). destruct HN as (H1 & H2 & H3 & H4 & H5 & H6 & H7).
    pose proof (sumw_upd pendw (Ready lcv l op (KStart op)) Ht) as Ep.
    pose proof (sumw_upd insw (Ready lcv l op (KStart op)) Ht) as Ei. simpl in Ep, Ei.
    unfold Num; cbn [sh thr hist]. rewrite started_call, returned_call. cbn [start ltprog] in *. unfold lstart.
    split; [apply Forall_upd; auto; simpl; destruct op; simpl; auto; apply (Hnr t n); left; auto|].
    repeat split; auto; try lia.
  - assert (Hnr' : no_reset (hist c)).
    { destruct o; simpl in Hnr; auto; eapply no_reset_tail; eauto. }
    specialize (HN Hnr'). clear Hnr.
    pose proof (deliver_all_woken Hd) as Hw.
    assert (Ht' : nth_error thr' t = Some (Ready lcv l op k)) by (eapply woken_not_asleep; eauto).
    assert (Ep : sumw pendw thr' = sumw pendw (thr c)) by (eapply pend_woken; eauto).
    assert (Ei : sumw insw thr' = sumw insw (thr c)) by (apply woken_sumw_eq; auto; apply insw_wake).
    destruct HN as (H1 & H2 & H3 & H4 & H5 & H6 & H7).
    assert (H1' : Forall (noreset1 m) thr') by (eapply woken_Forall; eauto; apply noreset_wake).
    pose proof (Forall_nth_error H1 Ht) as Hn.
    cbn [frag ltprog] in Hfr.
    pose proof (sumw_upd pendw (fst (after ltprog t l op o (hist c))) Ht') as Ep'.
    pose proof (sumw_upd insw (fst (after ltprog t l op o (hist c))) Ht') as Ei'.
    rewrite Ep in Ep'. rewrite Ei in Ei'. clear Ep Ei Hd Hw Ht'.
    destruct k as [op'| | | |]; simpl in Hx.
    1: subst op'; destruct op; simpl in Hfr, Hn; try contradiction; unfold count_down_ in Hfr;
       destruct (l_count (sh c)) as [|[|cc]] eqn:Hc; simpl in Hfr.
    all: try (destruct Hx as [Hx1 [-> | ->]]); try (destruct Hx as [Hx1 ->]);
      try (destruct op; try discriminate Hx).
    all: cbn in Hfr;
      repeat match type of Hfr with context [if ?b then _ else _] => destruct b eqn:? end;
       inversion Hfr; subst; clear Hfr; facts;
       unfold Num; cbn [after fst snd next ltprog sh thr hist]; rewrite ?started_done, ?returned_done;
       cbn -[sumw upd] in Ep', Ei'; cbn [counts_down]; rewrite ?Hc in *;
       cbn [l_count l_gen] in *.
    all: (split; [apply Forall_upd; auto; simpl; try (simpl in Hn; lia);
                  try (split; [apply H5|]; lia)|]).
    all: repeat split; intros;
      repeat match goal with H : 0 < _ -> _ |- _ => first [specialize (H ltac:(lia))|clear H] end;
      try lia.
  - simpl in Hx. contradiction.
  - specialize (HN Hnr). eapply (Num_noop m c) with (1 := eq_refl) (2 := eq_refl) (3 := eq_refl) (4 := Ht); auto.
    + destruct k; simpl in Hx; try contradiction; reflexivity.
    + destruct HN as [HN _]. apply (Forall_nth_error HN Ht).
  - specialize (HN Hnr). eapply (Num_noop m c) with (1 := eq_refl) (2 := eq_refl) (3 := eq_refl) (4 := Ht); auto.
    + destruct k; try discriminate. injection Hk as <-. reflexivity.
    + destruct HN as [HN _]. pose proof (Forall_nth_error HN Ht) as Hn.
      destruct k; try discriminate. injection Hk as <-. exact Hn.
  - specialize (HN Hnr). eapply (Num_noop m c) with (1 := eq_refl) (2 := eq_refl) (3 := eq_refl) (4 := Ht); auto.
    + destruct k; try discriminate; injection Hk as <-; reflexivity.
    + destruct HN as [HN _]. pose proof (Forall_nth_error HN Ht) as Hn.
      destruct k; try discriminate; injection Hk as <-; eapply noreset_moved; eauto; exact I.
  - specialize (HN Hnr). eapply (Num_noop m c) with (1 := eq_refl) (2 := eq_refl) (3 := eq_refl) (4 := Ht); auto.
    + destruct k; try discriminate; injection Hk as <-; reflexivity.
    + destruct HN as [HN _]. pose proof (Forall_nth_error HN Ht) as Hn.
      destruct k; try discriminate; injection Hk as <-; eapply noreset_moved; eauto; exact I.
Qed.

Lemma Inv2_reachable n m c : reachable ltprog n (latch_new m) tt c -> Inv2 m c.
Proof.
  apply (reachable_inv ltprog (Inv2 m)).
  - split.
    + apply Forall_forall. intros x Hx. apply repeat_spec in Hx. subst x. exact I.
    + intros _. unfold Num; cbn -[sumw started returned].
      rewrite !sumw_repeat. cbn. repeat split; try lia.
      apply Forall_forall. intros x Hx. apply repeat_spec in Hx. subst x. exact I.
  - apply Inv2_step.
Qed.

(** The step that produced a return. *)
Lemma done_frag c lb c' t op r :
  step ltprog c lb = Some c' -> hist c' = EDone t op r :: hist c ->
  exists l k e ns o, nth_error (thr c) t = Some (Ready lcv l op k) /\
    lfrag t e k (sh c) = (sh c', ns, o) /\ (o = ORet lk lcv r \/ exists ns', o = OFin lk r ns').
Proof.
  intros Hs Hh. apply step_inv in Hs. destruct Hs as
   [t0 l op0 Ht Hp ->|t0 ps e l op0 k s' ns o thr' Ht Hfr Hd ->|t0 p l n ns thr' Ht Hd ->
   |t0 l op0 cv k Ht ->|t0 l op0 cv k k' Ht Hk ->|t0 l op0 cv k k' Ht Hk ->|t0 l op0 k k' Ht Hk ->];
    cbn [hist sh] in Hh; try discriminate;
    try (exfalso; apply (f_equal (@length _)) in Hh; simpl in Hh; lia).
  destruct o; cbn in Hh; try (exfalso; apply (f_equal (@length _)) in Hh; simpl in Hh; lia);
    inversion Hh; subst; exists l, k, e, ns; eexists; repeat split; eauto.
Qed.

Lemma sumw_pend_le_ins l : sumw pendw l <= sumw insw l.
Proof. apply sumw_le. intros [| l0 op []| | |] _; simpl; lia. Qed.

Ltac split_frag Hf Ho Hx k op ct Hc :=
  destruct k as [op'| | | |]; cbn in Hx;
  [ subst op'; destruct op; cbn in Hf; unfold count_down_ in Hf; cbn in Hf;
    destruct ct as [|[|?]]; cbn in Hf | | | |];
  cbn in Hf; repeat match type of Hf with context [if ?b then _ else _] => destruct b eqn:? end;
  inversion Hf; subst; clear Hf; facts; destruct Ho as [Ho|[ns' Ho]]; try discriminate Ho;
  inversion Ho; subst; clear Ho.

Lemma open_count n m c t op r h1 h2 :
  reachable ltprog n (latch_new m) tt c -> no_reset (hist c) ->
  hist c = h1 ++ EDone t op r :: h2 -> says_open op r = true -> m <= started h2.
Proof.
  intros Hr Hnr Hh Hop.
  destruct (event_step ltprog _ _ _ Hr Hh) as (c1 & lb & c2 & Hr1 & Hs & <- & Hh2 & _).
  assert (Hr2 : reachable ltprog n (latch_new m) tt c2) by (eapply reachable_step; eauto).
  assert (Hnr2 : no_reset (hist c2)).
  { intros t0 k0 Hin. apply (Hnr t0 k0). rewrite Hh. apply in_or_app. right. rewrite <- Hh2. auto. }
  assert (Hnr1 : no_reset (hist c1)) by (rewrite Hh2 in Hnr2; eapply no_reset_tail; eauto).
  destruct (Inv2_reachable _ _ _ Hr2) as [_ N2]. specialize (N2 Hnr2).
  destruct (Inv2_reachable _ _ _ Hr1) as [I1 N1]. specialize (N1 Hnr1).
  destruct (done_frag _ _ _ _ _ _ Hs Hh2) as (l & k & e & ns & o & Ht & Hf & Ho).
  assert (Hz : l_count (sh c2) = 0).
  { pose proof (Forall_nth_error I1 Ht) as Hx. destruct N1 as (N0 & L1 & _ & _ & G1 & G2 & _).
    pose proof (Forall_nth_error N0 Ht) as Hn. cbn in Hn.
    destruct (sh c1) as [ct g] eqn:E1. destruct (sh c2) as [ct2 g2] eqn:E2.
    cbn [l_count l_gen] in *.
    split_frag Hf Ho Hx k op ct Hc; try discriminate Hop; try lia;
      try (destruct ct2; [reflexivity|specialize (G1 ltac:(lia))]);
      try (destruct op; cbn in Hn; try contradiction; try discriminate Hop; lia).
    destruct Hx as [Hx ->]. cbn in Hop, Hn. destruct (g0 =? g2) eqn:He; [discriminate|]. facts. lia. }
  destruct N2 as (_ & _ & N2 & _). rewrite Hz, Hh2, started_done in N2. lia.
Qed.

Lemma closed_count n m c t op r h1 h2 :
  reachable ltprog n (latch_new m) tt c -> no_reset (hist c) ->
  hist c = h1 ++ EDone t op r :: h2 -> says_closed op r = true -> returned h2 < m.
Proof.
  intros Hr Hnr Hh Hop.
  destruct (event_step ltprog _ _ _ Hr Hh) as (c1 & lb & c2 & Hr1 & Hs & <- & Hh2 & _).
  assert (Hnr1 : no_reset (hist c1)).
  { intros t0 k0 Hin. apply (Hnr t0 k0). rewrite Hh. apply in_or_app. right. right. auto. }
  destruct (Inv2_reachable _ _ _ Hr1) as [I1 N1]. specialize (N1 Hnr1).
  destruct (done_frag _ _ _ _ _ _ Hs Hh2) as (l & k & e & ns & o & Ht & Hf & Ho).
  destruct N1 as (N0 & L1 & N3 & N4 & G1 & G2 & N7).
  pose proof (sumw_pend_le_ins (thr c1)).
  assert (Hz : 0 < l_count (sh c1)).
  { pose proof (Forall_nth_error I1 Ht) as Hx. pose proof (Forall_nth_error N0 Ht) as Hn. cbn in Hn.
    clear N3 N4 N7 H.
    destruct (sh c1) as [ct g] eqn:E1. destruct (sh c2) as [ct2 g2] eqn:E2. cbn [l_count l_gen] in *.
    split_frag Hf Ho Hx k op ct Hc; try discriminate Hop; try lia; try (destruct op; discriminate).
    destruct Hx as [Hx1 ->]. cbn in Hop, Hn. destruct (g0 =? g2) eqn:He; [facts|discriminate].
    destruct Hn as [-> Hm]. destruct ct2; [|lia]. specialize (G2 Hm eq_refl). lia. }
  specialize (N4 Hz). lia.
Qed.

Lemma quiet_open n m c t :
  reachable ltprog n (latch_new m) tt c -> no_reset (hist c) -> quiescent c ->
  m <= started (hist c) -> ~ blocked c t.
Proof.
  intros Hr Hnr Hq Hm (l & op & cv & k & Ht).
  destruct (Inv2_reachable _ _ _ Hr) as [I1 N]. specialize (N Hnr).
  destruct N as (N0 & L1 & N3 & N4 & G1 & G2 & N7).
  pose proof (Forall_nth_error I1 Ht) as Hx. pose proof (Forall_nth_error N0 Ht) as Hn.
  assert (Hp : sumw pendw (thr c) = 0) by (apply (quiescent_sumw pendw Hq); auto).
  destruct (l_count (sh c)) as [|cc] eqn:Hc.
  - destruct k; simpl in Hx; try tauto; destruct Hx as [Hx Hop]; simpl in Hn;
      repeat (destruct Hop as [Hop|Hop]); subst op; destruct Hn as [-> Hm0];
      specialize (G2 Hm0 eq_refl); lia.
  - specialize (N4 ltac:(lia)). lia.
Qed.

Lemma lt_direct : direct ltprog.
Proof.
  intros t e k s s' ns o Hf. cbn [frag ltprog] in Hf.
  destruct (lfrag_cases _ _ _ _ _ _ _ Hf) as [[-> _]|(-> & _ & _ & _ & Ho)].
  - destruct o; auto. destruct k as [[]| | | |]; simpl in Hf; unfold count_down_ in Hf;
      destruct (l_count s) as [|[|cc]]; simpl in Hf;
      repeat match type of Hf with context [if ?b then _ else _] => destruct b end; inversion Hf.
  - destruct o; auto; contradiction.
Qed.

(** ** With reset *)

Definition gen_of (x : tst) : option (lop * nat) :=
  match x with
  | Ready _ _ op (KWaiting g) | Ready _ _ op (KTimed g) | Ready _ _ op (KDeadline g)
  | Asleep _ op _ (KWaiting g) | Asleep _ op _ (KTimed g) => Some (op, g)
  | _ => None
  end.

Lemma gen_of_inside c t op x g : nth_error (thr c) t = Some x -> gen_of x = Some (op, g) -> inside c t op.
Proof.
  intros Ht Hg. destruct x as [l|l op0 k|l op0 cv k| |]; simpl in Hg; try discriminate;
    destruct k; try discriminate; injection Hg as <- <-; exists l; eexists; eauto.
Qed.

(** The history of zero: thread [t] has been inside its present call when the count was zero. *)
Definition saw_zero c0 (ls : list (label lop unit)) (c : ltconf) t op : Prop :=
  exists ls1 ls2 c1 h, ls = ls1 ++ ls2 /\ run ltprog c0 ls1 = Some c1 /\ run ltprog c1 ls2 = Some c /\
    inside c1 t op /\ l_count (sh c1) = 0 /\ hist c = h ++ hist c1 /\ ~ returns_in t h.

Lemma saw_step c0 ls c lb c' t op :
  saw_zero c0 ls c t op -> step ltprog c lb = Some c' ->
  (forall op' r, hist c' <> EDone t op' r :: hist c) -> saw_zero c0 (ls ++ [lb]) c' t op.
Proof.
  intros (ls1 & ls2 & c1 & h & -> & R1 & R2 & Hi & Hz & Hh & Hn) Hs Hd.
  assert (Hr' : run ltprog c1 (ls2 ++ [lb]) = Some c') by (rewrite run_app, R2; simpl; rewrite Hs; auto).
  destruct (step_hist _ _ _ Hs) as [H|[(t0 & op0 & H)|(t0 & op0 & r0 & H)]].
  - exists ls1, (ls2 ++ [lb]), c1, h. rewrite app_assoc, H. repeat split; auto.
  - exists ls1, (ls2 ++ [lb]), c1, (ECall lres t0 op0 :: h). rewrite app_assoc, H, Hh.
    repeat split; auto. intros (o & r & [Hin|Hin]); [discriminate|]. apply Hn. exists o, r; auto.
  - exists ls1, (ls2 ++ [lb]), c1, (EDone t0 op0 r0 :: h). rewrite app_assoc, H, Hh.
    repeat split; auto. intros (o & r & [Hin|Hin]).
    + injection Hin as -> -> ->. eapply Hd; eauto.
    + apply Hn. exists o, r; auto.
Qed.

Definition Qz c0 (ls : list (label lop unit)) (c : ltconf) : Prop :=
  forall t x op g, nth_error (thr c) t = Some x -> gen_of x = Some (op, g) ->
    g < l_gen (sh c) -> saw_zero c0 ls c t op.

Lemma gen_of_wake g x : okthr g x -> gen_of (wake x) = gen_of x.
Proof. destruct x as [| |l op c []| |]; simpl; tauto. Qed.

Lemma hist_no_done (c : ltconf) lb c' t x y op g :
  step ltprog c lb = Some c' -> nth_error (thr c) t = Some x -> nth_error (thr c') t = Some y ->
  gen_of y = Some (op, g) -> forall op' r, hist c' <> EDone t op' r :: hist c.
Proof.
  intros Hs Hx Hy Hg op' r Hh. apply step_inv in Hs. destruct Hs as
   [t0 l op0 Ht Hp ->|t0 ps e l op0 k s' ns o thr' Ht Hfr Hd ->|t0 p l n ns thr' Ht Hd ->
   |t0 l op0 cv k Ht ->|t0 l op0 cv k k' Ht Hk ->|t0 l op0 cv k k' Ht Hk ->|t0 l op0 k k' Ht Hk ->];
    cbn [hist thr] in *; try discriminate;
    try (exfalso; apply (f_equal (@length _)) in Hh; simpl in Hh; lia).
  destruct o as [r0|r0 ns0| | |]; cbn in Hh; try (exfalso; apply (f_equal (@length _)) in Hh; simpl in Hh; lia);
    inversion Hh; subst; simpl in Hy;
    rewrite nth_error_upd_same in Hy by (pose proof (deliver_all_woken Hd) as [Hl _]; rewrite Hl; eapply nth_error_lt; eauto);
    injection Hy as <-; [discriminate|destruct ns0; discriminate].
Qed.

Lemma Qz_step n m ls c lb c' :
  run ltprog (init lk lop lres lcv n (latch_new m) tt) ls = Some c ->
  Qz (init lk lop lres lcv n (latch_new m) tt) ls c ->
  step ltprog c lb = Some c' -> Qz (init lk lop lres lcv n (latch_new m) tt) (ls ++ [lb]) c'.
Proof.
  intros Hrun HQ Hs. assert (HI : Inv1 c) by (eapply Inv1_reachable; exists ls; eauto).
  assert (HI' : Inv1 c') by (eapply Inv1_step; eauto; eapply step_inv; eauto).
  intros t y op g Hy Hg Hlt.
  assert (Hx : exists x, nth_error (thr c) t = Some x).
  { destruct (nth_error (thr c) t) as [x|] eqn:Hx; eauto. apply nth_error_None in Hx.
    apply nth_error_lt in Hy. rewrite (step_length (step_inv _ _ _ Hs)) in Hy. lia. }
  destruct Hx as [x Hx].
  assert (Hnd := hist_no_done _ _ _ _ _ _ _ _ Hs Hx Hy Hg).
  assert (Hold : gen_of x = Some (op, g) /\ g < l_gen (sh c) \/ l_count (sh c') = 0).
  { pose proof (step_inv _ _ _ Hs) as Hsc. destruct Hsc as
     [t0 l op0 Ht Hp ->|t0 ps e l op0 k s' ns o thr' Ht Hfr Hd ->|t0 p l n0 ns thr' Ht Hd ->
     |t0 l op0 cv k Ht ->|t0 l op0 cv k k' Ht Hk ->|t0 l op0 cv k k' Ht Hk ->|t0 l op0 k k' Ht Hk ->];
      cbn [sh thr] in *; pose proof (Forall_nth_error HI Ht) as Hok0;
      try (apply nth_error_upd in Hy as [(-> & -> & _)|(Hne & Hy)];
           [assert (E : Some x = Some x) by auto; rewrite Ht in Hx; injection Hx as <-|
            rewrite Hx in Hy; injection Hy as <-; left; split; auto]).
    - discriminate.
    - cbn [frag ltprog] in Hfr. destruct (lfrag_cases _ _ _ _ _ _ _ Hfr) as [[-> Hgen]|(_ & _ & -> & _)];
        [|right; reflexivity].
      simpl in Hd. injection Hd as <-. rewrite Hgen in Hlt.
      apply nth_error_upd in Hy as [(-> & -> & _)|(Hne & Hy)].
      + left. rewrite Ht in Hx. injection Hx as <-.
        destruct k as [op'| | | |]; simpl in Hok0.
        1: subst op'; destruct op0; simpl in Hfr; unfold count_down_ in Hfr;
          destruct (l_count (sh c)) as [|[|cc]] eqn:Hc; simpl in Hfr.
        all: cbn in Hfr; repeat match type of Hfr with context [if ?b then _ else _] => destruct b eqn:? end;
          inversion Hfr; subst; clear Hfr; simpl in Hg; try discriminate; injection Hg as <- <-; facts; try lia.
      + rewrite Hx in Hy; injection Hy as <-. left; auto.
    - simpl in Hok0. contradiction.
    - destruct k; simpl in Hok0, Hg; try contradiction; try discriminate; injection Hg as <- <-; left; simpl; auto.
    - destruct k; try discriminate. injection Hk as <-. simpl in Hg. injection Hg as <- <-. left; simpl; auto.
    - destruct k; try discriminate; injection Hk as <-; discriminate.
    - destruct k; try discriminate; injection Hk as <-; discriminate. }
  destruct Hold as [[Hg0 Hlt0]|Hz].
  - eapply saw_step; eauto.
  - exists (ls ++ [lb]), [], c', []. rewrite app_nil_r. repeat split; auto.
    + rewrite run_app, Hrun. simpl. rewrite Hs. auto.
    + eapply gen_of_inside; eauto.
    + intros (o & r & []).
Qed.

Lemma Qz_run n m ls c :
  run ltprog (init lk lop lres lcv n (latch_new m) tt) ls = Some c ->
  Qz (init lk lop lres lcv n (latch_new m) tt) ls c.
Proof.
  revert ls c. apply run_snoc_ind.
  - intros t x op g Ht Hg _. simpl in Ht. apply nth_error_In, repeat_spec in Ht. subst x. discriminate.
  - intros ls c lb c' Hr HQ Hs. eapply Qz_step; eauto.
Qed.

Lemma open_saw_zero n m ls c lb c' t op r :
  run ltprog (init lk lop lres lcv n (latch_new m) tt) ls = Some c ->
  step ltprog c lb = Some c' -> hist c' = EDone t op r :: hist c -> says_open op r = true ->
  l_count (sh c') = 0 \/ saw_zero (init lk lop lres lcv n (latch_new m) tt) ls c t op.
Proof.
  intros Hr Hs Hh Hop. assert (HI : Inv1 c) by (eapply Inv1_reachable; exists ls; eauto).
  pose proof (Qz_run _ _ _ _ Hr) as HQ.
  destruct (done_frag _ _ _ _ _ _ Hs Hh) as (l & k & e & ns & o & Ht & Hf & Ho).
  pose proof (Forall_nth_error HI Ht) as Hx.
  specialize (HQ t (Ready lcv l op k) op).
  destruct (sh c) as [ct g] eqn:E1. destruct (sh c') as [ct2 g2] eqn:E2. cbn [l_count l_gen] in *.
  split_frag Hf Ho Hx k op ct Hc; try discriminate Hop; auto.
  - right. apply (HQ g0 Ht); [reflexivity|]. lia.
  - right. apply (HQ g0 Ht); [reflexivity|]. lia.
  - right. destruct Hx as [Hx ->]. cbn in Hop. destruct (g0 =? g2) eqn:He; [discriminate|]. facts.
    apply (HQ g0 Ht); [reflexivity|]. lia.
  - destruct op; discriminate.
Qed.

(** A sleeper at the moment of completion is released whatever happens next. *)
Definition past (g : nat) (x : tst) : Prop := match gen_of x with Some (_, g') => g' < g | None => False end.

Definition Qr t (c2 c : ltconf) : Prop :=
  Inv1 c /\ exists h, hist c = h ++ hist c2 /\
    (returns_in t h \/ exists x, nth_error (thr c) t = Some x /\
       (past (l_gen (sh c)) x \/ exists l op, x = Ready lcv l op KIntr)).

Lemma Qr_step t c2 c c' : Qr t c2 c -> stepcase ltprog c c' -> Qr t c2 c'.
Proof.
  intros (HI & h & Hh & HQ) Hs. split; [eapply Inv1_step; eauto|].
  assert (Hgen : l_gen (sh c) <= l_gen (sh c')).
  { destruct Hs as
     [t0 l op0 Ht Hp ->|t0 ps e l op0 k s' ns o thr' Ht Hfr Hd ->|t0 p l n0 ns thr' Ht Hd ->
     |t0 l op0 cv k Ht ->|t0 l op0 cv k k' Ht Hk ->|t0 l op0 cv k k' Ht Hk ->|t0 l op0 k k' Ht Hk ->]; simpl; auto.
    cbn [frag ltprog] in Hfr. destruct (lfrag_cases _ _ _ _ _ _ _ Hfr) as [[_ Hg]|(_ & _ & -> & _)]; simpl; lia. }
  assert (Hext : forall h', returns_in t h -> returns_in t (h' ++ h)).
  { intros h' (o & r & Hin). exists o, r. apply in_or_app; auto. }
  destruct Hs as
     [t0 l op0 Ht Hp ->|t0 ps e l op0 k s' ns o thr' Ht Hfr Hd ->|t0 p l n0 ns thr' Ht Hd ->
     |t0 l op0 cv k Ht ->|t0 l op0 cv k k' Ht Hk ->|t0 l op0 cv k k' Ht Hk ->|t0 l op0 k k' Ht Hk ->];
    cbn [sh thr hist] in *; pose proof (Forall_nth_error HI Ht) as Hok0.
  - exists (ECall lres t0 op0 :: h). split; [simpl; congruence|].
    destruct HQ as [HQ|(x & Hx & HQ)]; [left; apply (Hext [_]); auto|right].
    destruct (Nat.eq_dec t0 t) as [->|Hne].
    + rewrite Ht in Hx. injection Hx as <-. destruct HQ as [HQ|(l1 & op1 & HQ)]; [destruct HQ|discriminate].
    + exists x. rewrite nth_error_upd_other by auto. auto.
  - pose proof (deliver_all_woken Hd) as Hw.
    destruct HQ as [HQ|(x & Hx & HQ)].
    { destruct o; cbn; rewrite Hh.
      1,2: eexists (_ :: h); split; [reflexivity|left; apply (Hext [_]); auto].
      all: exists h; split; auto. }
    destruct (Nat.eq_dec t0 t) as [->|Hne].
    + rewrite Ht in Hx. injection Hx as <-. cbn [frag ltprog] in Hfr.
      assert (Hret : exists r, (o = ORet lk lcv r \/ exists ns', o = OFin lk r ns')).
      { destruct HQ as [HQ|(l1 & op1 & HQ)].
        - unfold past in HQ. destruct k; simpl in HQ; try contradiction; simpl in Hfr.
          + destruct (negb (g =? l_gen (sh c))) eqn:He; facts; [|lia]. inversion Hfr; subst; eauto.
          + destruct (negb (g =? l_gen (sh c))) eqn:He; facts; [|lia]. inversion Hfr; subst; eauto.
          + inversion Hfr; subst; eauto.
        - injection HQ as -> -> ->. simpl in Hfr. inversion Hfr; subst; eauto. }
      destruct Hret as (r & Hret). exists (EDone t op0 r :: h).
      split; [destruct Hret as [-> |[ns' ->]]; simpl; congruence|].
      left. exists op0, r. left; auto.
    + assert (Hx' : exists x', nth_error thr' t = Some x' /\
                (past (l_gen s') x' \/ exists l op, x' = Ready lcv l op KIntr)).
      { destruct Hw as [Hlen Hw]. pose proof (Forall_nth_error HI Hx) as Hok.
        destruct (Hw _ _ Hx) as [H|[Ha H]].
        - exists x. split; auto. destruct HQ as [HQ|HQ]; auto. left. unfold past in *.
          destruct (gen_of x) as [[? ?]|]; auto. lia.
        - exists (wake x). split; auto. destruct HQ as [HQ|(? & ? & ->)]; [|discriminate].
          left. unfold past in *. rewrite (gen_of_wake _ _ Hok). destruct (gen_of x) as [[? ?]|]; auto. lia. }
      destruct Hx' as (x' & Hx' & HQ').
      destruct o; cbn [after snd fst]; rewrite Hh.
      1,2: eexists (_ :: h); split; [reflexivity|right; exists x'; rewrite nth_error_upd_other by auto; auto].
      all: exists h; split; [reflexivity|right; exists x'; rewrite nth_error_upd_other by auto; auto].
  - simpl in Hok0. contradiction.
  - exists h. split; auto. destruct HQ as [HQ|(x & Hx & HQ)]; auto. right.
    destruct (Nat.eq_dec t0 t) as [->|Hne].
    + rewrite Ht in Hx. injection Hx as <-. exists (Ready lcv l op0 k).
      rewrite nth_error_upd_same by (eapply nth_error_lt; eauto). split; auto.
      destruct HQ as [HQ|(? & ? & HQ)]; [|discriminate]. left. destruct k; simpl in *; tauto.
    + exists x. rewrite nth_error_upd_other by auto. auto.
  - exists h. split; auto. destruct HQ as [HQ|(x & Hx & HQ)]; auto. right.
    destruct (Nat.eq_dec t0 t) as [->|Hne].
    + rewrite Ht in Hx. injection Hx as <-. exists (Ready lcv l op0 k').
      rewrite nth_error_upd_same by (eapply nth_error_lt; eauto). split; auto.
      destruct HQ as [HQ|(? & ? & HQ)]; [|discriminate]. left.
      destruct k; try discriminate; injection Hk as <-; exact HQ.
    + exists x. rewrite nth_error_upd_other by auto. auto.
  - exists h. split; auto. destruct HQ as [HQ|(x & Hx & HQ)]; auto. right.
    destruct (Nat.eq_dec t0 t) as [->|Hne].
    + exists (Ready lcv l op0 k').
      rewrite nth_error_upd_same by (eapply nth_error_lt; eauto). split; auto. right.
      destruct k; try discriminate; injection Hk as <-; eauto.
    + exists x. rewrite nth_error_upd_other by auto. auto.
  - exists h. split; auto. destruct HQ as [HQ|(x & Hx & HQ)]; auto. right.
    destruct (Nat.eq_dec t0 t) as [->|Hne].
    + exists (Ready lcv l op0 k').
      rewrite nth_error_upd_same by (eapply nth_error_lt; eauto). split; auto. right.
      destruct k; try discriminate; injection Hk as <-; eauto.
    + exists x. rewrite nth_error_upd_other by auto. auto.
Qed.

Lemma reset_releases n m c1 lb c2 ls c3 t t' op r :
  reachable ltprog n (latch_new m) tt c1 -> blocked c1 t ->
  step ltprog c1 lb = Some c2 -> hist c2 = EDone t' op r :: hist c1 -> counts_down op = true ->
  l_count (sh c1) <> 0 -> l_count (sh c2) = 0 ->
  run ltprog c2 ls = Some c3 -> quiescent c3 ->
  exists h, hist c3 = h ++ hist c2 /\ returns_in t h.
Proof.
  intros Hr (l & op0 & cv & k & Ht) Hs Hh Hop Hc1 Hc2 Hrun Hq.
  assert (HI : Inv1 c1) by (eapply Inv1_reachable; eauto).
  pose proof (Forall_nth_error HI Ht) as Hok.
  assert (HQ : Qr t c2 c2).
  { split; [eapply Inv1_step; eauto; eapply step_inv; eauto|]. exists []. split; auto. right.
    destruct (done_frag _ _ _ _ _ _ Hs Hh) as (l1 & k1 & e & ns & o & Ht1 & Hf & Ho).
    assert (Hg : l_gen (sh c2) = S (l_gen (sh c1))).
    { pose proof (Forall_nth_error HI Ht1) as Hok1.
      destruct (lfrag_cases _ _ _ _ _ _ _ Hf) as [[_ Hg]|(_ & _ & -> & _)]; [|reflexivity]. exfalso.
      destruct (sh c1) as [ct g] eqn:E1. destruct (sh c2) as [ct2 g2] eqn:E2. cbn [l_count l_gen] in *.
      split_frag Hf Ho Hok1 k1 op ct Hc; try discriminate Hop; try lia. }
    clear Hf Ho.
    pose proof (step_inv _ _ _ Hs) as Hsc. destruct Hsc as
     [t0 l0 op1 Ht0 Hp ->|t0 ps e0 l0 op1 k0 s' ns0 o0 thr' Ht0 Hfr Hd ->|t0 p l0 n0 ns0 thr' Ht0 Hd ->
     |t0 l0 op1 cv0 k0 Ht0 ->|t0 l0 op1 cv0 k0 k' Ht0 Hk ->|t0 l0 op1 cv0 k0 k' Ht0 Hk ->|t0 l0 op1 k0 k' Ht0 Hk ->];
    cbn [hist sh thr] in *; try lia; try discriminate.
    assert (Hne : t0 <> t) by (intros ->; congruence).
    cbn [frag ltprog] in Hfr. pose proof (deliver_all_woken Hd) as [_ Hw].
    assert (Hx' : exists x', nth_error thr' t = Some x' /\ gen_of x' = gen_of (Asleep l op0 cv k)).
    { destruct (Hw _ _ Ht) as [H|[_ H]]; eexists; split; eauto. apply (gen_of_wake _ _ Hok). }
    destruct Hx' as (x' & Hx' & Hg'). exists x'. rewrite nth_error_upd_other by auto. split; auto.
    left. unfold past. rewrite Hg'. rewrite Hg. destruct k; simpl in *; try tauto; lia. }
  pose proof (run_inv ltprog (Qr t c2) (Qr_step t c2) _ _ _ HQ Hrun) as (HI3 & h & Hh3 & HQ3).
  exists h. split; auto. destruct HQ3 as [HQ3|(x & Hx & HQ3)]; auto. exfalso.
  pose proof (Forall_nth_error HI3 Hx) as Hok3.
  destruct (quiescent_settled Hq Hx) as [[l1 ->]|(l1 & op1 & cv1 & k1 & ->)].
  - destruct HQ3 as [HQ3|(? & ? & HQ3)]; [destruct HQ3|discriminate].
  - destruct HQ3 as [HQ3|(? & ? & HQ3)]; [|discriminate].
    unfold past in HQ3. destruct k1; simpl in *; try tauto; lia.
Qed.
