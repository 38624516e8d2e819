(** * Proofs about boost::completion_latch *)

From Verif Require Import MonWake CL_Model CL_Spec.

Notation tst := (tstat ck cop ccv unit).
Notation P0 := (clprog false).

Definition enters (op : cop) : bool := match op with CWait | CTryWait | CWaitTimed | CSync => true | _ => false end.

(** Without reset and interruption: where a thread can be. *)
Definition stat (x : tst) : Prop :=
  match x with
  | Ready _ _ op k | Asleep _ op _ k =>
      match op with CReset _ => False | _ => True end /\
      match k with
      | CStart op' => op' = op
      | CEnter op' | CInside op' => op' = op /\ enters op = true
      | CFirst | CSecond => c_counts op = true
      | _ => False
      end
  | Tail _ _ _ _ => False
  | _ => True
  end.

Definition sleepok (s : clatch) (x : tst) : Prop :=
  match x with
  | Asleep _ _ CVLeave (CEnter _) => c_leave s <> 0
  | Asleep _ _ CVLeave (CInside _) => c_leave s = 0
  | Asleep _ _ CVWait CFirst => c_wait s = 0
  | Asleep _ _ CVWait CSecond => c_wait s <> 0
  | Asleep _ _ _ _ => False
  | _ => True
  end.

Definition w1 (x : tst) : nat := match x with Ready _ _ _ (CInside _) | Asleep _ _ _ (CInside _) => 1 | _ => 0 end.
Definition d1 (x : tst) : nat := match x with Ready _ _ _ CFirst | Asleep _ _ _ CFirst => 1 | _ => 0 end.
Definition d2 (x : tst) : nat := match x with Ready _ _ _ CSecond | Asleep _ _ _ CSecond => 1 | _ => 0 end.
Definition pw (x : tst) : nat :=
  match x with Ready _ _ op (CStart _) => if c_counts op then 1 else 0 | _ => 0 end.
(* returns of threads that had entered as waiters *)
Definition wret (op : cop) (r : cres) : bool := enters op && match r with CCompleted _ => false | _ => true end.
Definition wdone (h : list cevent) : nat :=
  length (filter (fun e => match e with EDone _ op r => wret op r | _ => false end) h).

Record Num (m : nat) (c : clconf) : Prop := {
  n_stat : Forall stat (thr c);
  n_sleep : Forall (sleepok (sh c)) (thr c);
  n_wait : c_wait (sh c) = sumw w1 (thr c);
  n_one : sumw d1 (thr c) + sumw d2 (thr c) + completions (hist c) <= 1;
  n_zero : 0 < m -> c_count (sh c) = 0 -> sumw d1 (thr c) + sumw d2 (thr c) + completions (hist c) = 1;
  n_pos : c_count (sh c) <> 0 -> sumw d1 (thr c) + sumw d2 (thr c) + completions (hist c) = 0;
  n_leave : c_leave (sh c) <> 0 -> sumw d2 (thr c) = 1;
  n_leave' : sumw d2 (thr c) = 1 -> c_leave (sh c) <> 0;
  n_le : c_count (sh c) <= m;
  n_downs : m - c_count (sh c) + sumw pw (thr c) <= downs (hist c);
  n_downs' : c_count (sh c) <> 0 -> downs (hist c) = m - c_count (sh c) + sumw pw (thr c);
  n_early : sumw d2 (thr c) + completions (hist c) = 0 -> wdone (hist c) = 0
}.

Definition Inv (m : nat) (c : clconf) : Prop := c_no_reset (hist c) -> Num m c.

Lemma no_reset_tail e h : c_no_reset (e :: h) -> c_no_reset h.
Proof. intros H t n Hin. apply (H t n). right; auto. Qed.

Lemma stat_wake x : is_asleep x = true -> stat x -> stat (wake x).
Proof. destruct x; simpl; auto. Qed.
Lemma sleepok_wake s x : sleepok s (wake x).
Proof. destruct x; simpl; auto. Qed.

Lemma w1_wake x : w1 (wake x) = w1 x. Proof. destruct x; auto. Qed.
Lemma d1_wake x : d1 (wake x) = d1 x. Proof. destruct x; auto. Qed.
Lemma d2_wake x : d2 (wake x) = d2 x. Proof. destruct x; auto. Qed.

(* sleepers are never at the start of a call *)
Definition nostart (x : tst) : Prop := match x with Asleep _ _ _ (CStart _) => False | _ => True end.
Lemma sleepok_nostart s x : sleepok s x -> nostart x.
Proof. destruct x as [| |l op [] []| |]; simpl; auto. Qed.

Lemma pw_woken s l l' : Forall (sleepok s) l -> woken_rel l l' -> sumw pw l' = sumw pw l.
Proof.
  intros HF [Hlen H]. revert l' Hlen H.
  induction HF as [|x l Hx HF IH]; intros [|y l'] Hlen H; simpl in *; try discriminate; auto.
  assert (pw y = pw x).
  { destruct (H 0 x eq_refl) as [H0|[Ha H0]]; simpl in H0; injection H0 as ->; auto.
    destruct x as [| |l0 op [] []| |]; simpl in *; tauto. }
  rewrite (IH l'); [lia|lia|]. intros i z Hz. apply (H (Datatypes.S i) z Hz).
Qed.

Lemma downs_call t op h : downs (ECall cres t op :: h) = (if c_counts op then 1 else 0) + downs h.
Proof. unfold downs; simpl; destruct (c_counts op); auto. Qed.
Lemma downs_done t op r h : downs (EDone t op r :: h) = downs h.
Proof. reflexivity. Qed.
Lemma compl_call t op h : completions (ECall cres t op :: h) = completions h.
Proof. reflexivity. Qed.
Lemma compl_done t op r h :
  completions (EDone t op r :: h) = (match r with CCompleted _ => 1 | _ => 0 end) + completions h.
Proof. unfold completions; simpl; destruct r; auto. Qed.
Lemma wdone_call t op h : wdone (ECall cres t op :: h) = wdone h.
Proof. reflexivity. Qed.
Lemma wdone_done t op r h : wdone (EDone t op r :: h) = (if wret op r then 1 else 0) + wdone h.
Proof. unfold wdone; simpl; destruct (wret op r); auto. Qed.

(** Sleepers stay correct when those whose condition changed have been woken. *)
Lemma sleepok_change s s' ns ps l l' :
  deliver_all P0 ns ps l = Some l' -> Forall (sleepok s) l ->
  (c_leave s' = c_leave s \/ In (NAll CVLeave) ns) ->
  (c_wait s' = c_wait s \/ In (NAll CVWait) ns) ->
  Forall (sleepok s') l'.
Proof.
  intros Hd Hs HL HW.
  assert (H1 : Forall (sleepok s) l').
  { eapply woken_Forall; [eapply deliver_all_woken; eauto| |exact Hs]. intros; apply sleepok_wake. }
  assert (H2 : c_leave s' = c_leave s \/ Forall (not_on P0 CVLeave) l').
  { destruct HL; auto. right. eapply deliver_all_NAll; eauto. }
  assert (H3 : c_wait s' = c_wait s \/ Forall (not_on P0 CVWait) l').
  { destruct HW; auto. right. eapply deliver_all_NAll; eauto. }
  rewrite Forall_forall in *. intros x Hx. specialize (H1 x Hx).
  destruct H2 as [H2|H2]; [|specialize (H2 x Hx)];
  (destruct H3 as [H3|H3]; [|specialize (H3 x Hx)]);
  unfold not_on in *; destruct x as [| |l0 op [] []| |]; simpl in *; try congruence; auto.
Qed.


Ltac facts :=
  repeat match goal with
  | H : (_ =? _) = true |- _ => apply Nat.eqb_eq in H
  | H : (_ =? _) = false |- _ => apply Nat.eqb_neq in H
  end.

Arguments w1 x /. Arguments d1 x /. Arguments d2 x /. Arguments pw x /.
Opaque wdone downs completions.

(** The counting part of the invariant, as a relation between numbers. *)
Record Cnt (m : nat) (s : clatch) (W1 D1 D2 PW : nat) (h : list cevent) : Prop := {
  k_wait : c_wait s = W1;
  k_one : D1 + D2 + completions h <= 1;
  k_zero : 0 < m -> c_count s = 0 -> D1 + D2 + completions h = 1;
  k_pos : c_count s <> 0 -> D1 + D2 + completions h = 0;
  k_leave : c_leave s <> 0 -> D2 = 1;
  k_leave' : D2 = 1 -> c_leave s <> 0;
  k_le : c_count s <= m;
  k_downs : m - c_count s + PW <= downs h;
  k_downs' : c_count s <> 0 -> downs h = m - c_count s + PW;
  k_early : D2 + completions h = 0 -> wdone h = 0
}.

Definition cnt (m : nat) (s : clatch) (l : list tst) (h : list cevent) : Prop :=
  Cnt m s (sumw w1 l) (sumw d1 l) (sumw d2 l) (sumw pw l) h.

Lemma Num_cnt m c : Num m c <-> Forall stat (thr c) /\ Forall (sleepok (sh c)) (thr c) /\ cnt m (sh c) (thr c) (hist c).
Proof. split; [intros []|intros (? & ? & [])]; repeat split; auto. Qed.

Lemma cnt_upd m s l h s' h' t x y :
  nth_error l t = Some x ->
  (forall W1 D1 D2 PW, Cnt m s (W1 + w1 x) (D1 + d1 x) (D2 + d2 x) (PW + pw x) h ->
     Cnt m s' (W1 + w1 y) (D1 + d1 y) (D2 + d2 y) (PW + pw y) h') ->
  cnt m s l h -> cnt m s' (upd l t y) h'.
Proof.
  intros Ht H Hc. unfold cnt in *.
  pose proof (sumw_upd w1 y Ht). pose proof (sumw_upd d1 y Ht). pose proof (sumw_upd d2 y Ht).
  pose proof (sumw_upd pw y Ht).
  pose proof (sumw_ge w1 Ht). pose proof (sumw_ge d1 Ht). pose proof (sumw_ge d2 Ht).
  pose proof (sumw_ge pw Ht).
  replace (sumw w1 (upd l t y)) with ((sumw w1 l - w1 x) + w1 y) by lia.
  replace (sumw d1 (upd l t y)) with ((sumw d1 l - d1 x) + d1 y) by lia.
  replace (sumw d2 (upd l t y)) with ((sumw d2 l - d2 x) + d2 y) by lia.
  replace (sumw pw (upd l t y)) with ((sumw pw l - pw x) + pw y) by lia.
  apply H.
  replace (sumw w1 l - w1 x + w1 x) with (sumw w1 l) by lia.
  replace (sumw d1 l - d1 x + d1 x) with (sumw d1 l) by lia.
  replace (sumw d2 l - d2 x + d2 x) with (sumw d2 l) by lia.
  replace (sumw pw l - pw x + pw x) with (sumw pw l) by lia.
  exact Hc.
Qed.

Ltac num :=
  intros; match goal with H : Cnt _ _ _ _ _ _ _ |- _ => destruct H end;
  constructor; simpl in *;
  rewrite ?downs_done, ?downs_call, ?compl_call, ?compl_done, ?wdone_call, ?wdone_done in *;
  simpl in *; try lia.

(** The effect of a fragment. *)
Lemma frag_effect m t e l op k s s' ns o h :
  stat (Ready ccv l op k) -> cfrag t e k s = (s', ns, o) ->
  (c_leave s <> 0 -> c_count s = 0) ->
  let '(x, h') := after P0 t l op o h in
  stat x /\ sleepok s' x /\
  (c_leave s' = c_leave s \/ In (NAll CVLeave) ns) /\
  (c_wait s' = c_wait s \/ In (NAll CVWait) ns) /\
  forall W1 D1 D2 PW,
     Cnt m s (W1 + w1 (Ready ccv l op k)) (D1 + d1 (Ready ccv l op k)) (D2 + d2 (Ready ccv l op k))
         (PW + pw (Ready ccv l op k)) h ->
     Cnt m s' (W1 + w1 x) (D1 + d1 x) (D2 + d2 x) (PW + pw x) h'.
Proof.
  intros Hst Hf Hlz. destruct k as [op'|op'|op'|op'| | | | |]; simpl in Hst; try tauto.
  - destruct Hst as [Hr ->]. destruct op; try tauto; simpl in Hf;
      unfold c_enter, c_inside, c_first, c_second, c_body, c_leave_with in Hf; simpl in Hf.
    1-3: destruct (c_leave s =? 0) eqn:E1; inversion Hf; subst; clear Hf; facts; simpl;
      (split; [auto|]); (split; [auto|]); (split; [auto|]); (split; [auto|]); num.
    + destruct (c_count s) as [|[|c]] eqn:Ec; simpl in Hf.
      * inversion Hf; subst; clear Hf; simpl. repeat (split; [auto|]). num.
      * destruct (c_wait s =? 0) eqn:E1; simpl in Hf; inversion Hf; subst; clear Hf; facts; simpl;
          repeat (split; [auto|]); num.
      * inversion Hf; subst; clear Hf; simpl. repeat (split; [auto|]). num.
    + destruct (c_count s) as [|[|c]] eqn:Ec; simpl in Hf.
      * inversion Hf; subst; clear Hf; simpl. repeat (split; [auto|]). num.
      * destruct (c_wait s =? 0) eqn:E1; simpl in Hf; inversion Hf; subst; clear Hf; facts; simpl;
          repeat (split; [auto|]); num.
      * destruct (c_leave s =? 0) eqn:E1; inversion Hf; subst; clear Hf; facts; simpl;
          repeat (split; [auto|]); num.
    + inversion Hf; subst; clear Hf; simpl. repeat (split; [auto|]). num.
  - destruct Hst as (Hr & -> & He); simpl in Hf;
      unfold c_enter, c_inside, c_body, c_leave_with in Hf; simpl in Hf.
    destruct (c_leave s =? 0) eqn:E1; inversion Hf; subst; clear Hf; facts; simpl;
      repeat (split; [auto|]); num.
  - destruct Hst as (Hr & -> & He); simpl in Hf;
      unfold c_inside, c_body, c_leave_with in Hf; simpl in Hf.
    destruct (c_leave s =? 0) eqn:E1.
    + inversion Hf; subst; clear Hf; facts; simpl; repeat (split; [auto|]); num.
    + facts. rewrite Hlz in Hf by auto. simpl in Hf.
      destruct op; try discriminate; inversion Hf; subst; clear Hf; simpl; repeat (split; [auto|]); num.
  - destruct Hst as [Hr He]. simpl in Hf. unfold c_first, c_second in Hf; simpl in Hf.
    destruct (c_wait s =? 0) eqn:E1; simpl in Hf; inversion Hf; subst; clear Hf; facts; simpl;
      (split; [auto|]); (split; [auto|]); (split; [auto|]); (split; [auto|]); num.
  - destruct Hst as [Hr He]. simpl in Hf. unfold c_second in Hf; simpl in Hf.
    destruct (c_wait s =? 0) eqn:E1; simpl in Hf; inversion Hf; subst; clear Hf; facts; simpl;
      (split; [auto|]); (split; [auto|]); (split; [auto|]); (split; [auto|]); num.
    all: destruct op; try discriminate; simpl in *; lia.
Qed.

Lemma cnt_ext m s l l' h :
  woken_rel l l' -> Forall (sleepok s) l -> cnt m s l h -> cnt m s l' h.
Proof.
  intros Hw Hs Hc. unfold cnt in *.
  assert (E1 : sumw w1 l' = sumw w1 l) by (apply woken_sumw_eq; auto using w1_wake).
  assert (E2 : sumw d1 l' = sumw d1 l) by (apply woken_sumw_eq; auto using d1_wake).
  assert (E3 : sumw d2 l' = sumw d2 l) by (apply woken_sumw_eq; auto using d2_wake).
  assert (E5 : sumw pw l' = sumw pw l) by (eapply pw_woken; eauto).
  rewrite E1, E2, E3, E5. exact Hc.
Qed.

Lemma Inv_step m c c' : Inv m c -> stepcase P0 c c' -> Inv m c'.
Proof.
  intros HI Hs. destruct Hs as
   [t l op Ht Hp ->|t ps e l op k s' ns o thr' Ht Hfr Hd ->|t p l n ns thr' Ht Hd ->
   |t l op cv k Ht ->|t l op cv k k' Ht Hk ->|t l op cv k k' Ht Hk ->|t l op k k' Ht Hk ->].
  - intros Hnr. cbn [hist] in Hnr. specialize (HI (no_reset_tail _ _ Hnr)).
    apply Num_cnt in HI as (H1 & H2 & H3). apply Num_cnt. cbn [sh thr hist].
    split; [|split].
    + apply Forall_upd; auto. simpl. split; auto. destruct op; auto. apply (Hnr t n). left; auto.
    + apply Forall_upd; simpl; auto.
    + eapply cnt_upd; eauto. num. all: destruct op; simpl in *; lia.
  - intros Hnr. cbn [hist sh thr] in *.
    assert (Hnr0 : c_no_reset (hist c)).
    { destruct o; simpl in Hnr; eauto using no_reset_tail. }
    specialize (HI Hnr0). apply Num_cnt in HI as (H1 & H2 & H3). apply Num_cnt. cbn [sh thr hist].
    pose proof (deliver_all_woken Hd) as Hw.
    assert (Ht' : nth_error thr' t = Some (Ready ccv l op k)) by (eapply woken_not_asleep; eauto).
    assert (Hlz : c_leave (sh c) <> 0 -> c_count (sh c) = 0).
    { intros Hn. destruct H3. destruct (Nat.eq_dec (c_count (sh c)) 0); auto. lia. }
    pose proof (frag_effect m t e l op k (sh c) s' ns o (hist c) (Forall_nth_error H1 Ht) Hfr Hlz) as HE.
    destruct (after P0 t l op o (hist c)) as [x h'] eqn:Ea. destruct HE as (E1 & E2 & E3 & E4 & E5).
    simpl. split; [|split].
    + apply Forall_upd; auto. eapply woken_Forall; [exact Hw| |exact H1]. intros; apply stat_wake; auto.
    + apply Forall_upd; auto. eapply sleepok_change; eauto.
    + eapply cnt_upd; [exact Ht'|exact E5|]. eapply cnt_ext; eauto.
  - intros Hnr. cbn [hist] in Hnr. specialize (HI Hnr).
    apply Num_cnt in HI as (H1 & H2 & H3). pose proof (Forall_nth_error H1 Ht) as Hx. simpl in Hx. contradiction.
  - intros Hnr. cbn [hist] in Hnr. specialize (HI Hnr).
    apply Num_cnt in HI as (H1 & H2 & H3). apply Num_cnt. cbn [sh thr hist].
    pose proof (Forall_nth_error H1 Ht) as Hx. pose proof (Forall_nth_error H2 Ht) as Hy.
    split; [|split]; [apply Forall_upd; auto| apply Forall_upd; simpl; auto|].
    eapply cnt_upd; eauto. intros *. destruct cv, k; simpl in Hy; try contradiction; simpl; auto.
  - intros Hnr. cbn [hist] in Hnr. specialize (HI Hnr).
    apply Num_cnt in HI as (H1 & H2 & H3). pose proof (Forall_nth_error H1 Ht) as Hx.
    destruct k; simpl in *; try discriminate; tauto.
  - simpl in Hk. discriminate.
  - simpl in Hk. discriminate.
Qed.

Definition cl_init n m f : clconf := init ck cop cres ccv n (clatch_new m f) tt.

Lemma Inv_reachable n m f c : reachable P0 n (clatch_new m f) tt c -> 0 < m -> Inv m c.
Proof.
  intros Hr Hm. revert c Hr. apply (reachable_inv P0 (Inv m)).
  - intros _. apply Num_cnt. Transparent wdone downs completions. simpl. split; [|split].
    + apply Forall_forall. intros x Hx. apply repeat_spec in Hx. subst x. exact I.
    + apply Forall_forall. intros x Hx. apply repeat_spec in Hx. subst x. exact I.
    + unfold cnt. rewrite !sumw_repeat. simpl. rewrite !Nat.mul_0_r.
      constructor; unfold completions, downs, wdone; simpl; try lia; auto.
  - apply Inv_step.
Qed.

(** ** Consequences *)

Lemma no_reset_app h1 h2 : c_no_reset (h1 ++ h2) -> c_no_reset h2.
Proof. intros H t n Hin. apply (H t n), in_app_iff. auto. Qed.

Lemma frag_done t e k s s' ns o r : cfrag t e k s = (s', ns, o) ->
  (o = ORet ck ccv r \/ exists ns', o = OFin ck r ns') ->
  (exists f, r = CCompleted f /\ k = CSecond /\ c_wait s = 0) \/ (forall f, r <> CCompleted f).
Proof.
  intros Hf Ho.
  destruct k as [[]| []| []|[]| | | | |]; simpl in Hf;
    unfold c_enter, c_inside, c_first, c_second, c_body, c_leave_with in Hf; simpl in Hf;
    repeat match type of Hf with
    | context [match c_count s with _ => _ end] => destruct (c_count s) as [|[|?]]; simpl in Hf
    | context [if ?b then _ else _] => destruct b eqn:?; simpl in Hf
    end;
    inversion Hf; subst; clear Hf; facts;
    destruct Ho as [Ho|[ns' Ho]]; inversion Ho; subst;
    try (right; intros ?; discriminate); left; eexists; repeat split; eauto.
Qed.

Lemma done_count n m f c1 lb c2 t op r : 0 < m ->
  reachable P0 n (clatch_new m f) tt c1 -> c_no_reset (hist c1) -> step P0 c1 lb = Some c2 ->
  hist c2 = EDone t op r :: hist c1 -> c_says_open op r = true -> m <= downs (hist c1).
Proof.
  intros Hm Hr Hnr Hs Hh Hop. pose proof (Inv_reachable _ _ _ _ Hr Hm Hnr) as HN.
  apply Num_cnt in HN as (H1 & H2 & H3). apply step_inv in Hs. destruct Hs as
   [t' l op' Ht Hp ->|t' ps e l op' k s' ns o thr' Ht Hfr Hd ->|t' p l n' ns thr' Ht Hd ->
   |t' l op' cv k Ht ->|t' l op' cv k k' Ht Hk ->|t' l op' cv k k' Ht Hk ->|t' l op' k k' Ht Hk ->];
   simpl in Hh; try (apply (f_equal (@length _)) in Hh; simpl in Hh; lia); [discriminate|].
  assert (Hz : c_count (sh c1) = 0 -> m <= downs (hist c1)).
  { intros Hz. pose proof (k_downs _ _ _ _ _ _ _ H3). lia. }
  pose proof (Forall_nth_error H1 Ht) as Hx.
  destruct (Nat.eq_dec (c_count (sh c1)) 0) as [Hz0|Hz0]; [auto|]. exfalso.
  pose proof (k_pos _ _ _ _ _ _ _ H3 Hz0) as Hp.
  assert (HL : c_leave (sh c1) = 0).
  { destruct (Nat.eq_dec (c_leave (sh c1)) 0); auto. pose proof (k_leave _ _ _ _ _ _ _ H3 n0). lia. }
  assert (Hdd : d2 (Ready ccv l op' k) = 0).
  { pose proof (sumw_ge d2 Ht). simpl in *. lia. }
  cbn [frag clprog] in Hfr.
  destruct k as [op2|op2|op2|op2| | | | |]; simpl in Hx; try tauto; simpl in Hdd; try lia.
  - destruct Hx as [Hx ->]. destruct op'; try tauto; simpl in Hfr;
    unfold c_enter, c_inside, c_first, c_second in Hfr; simpl in Hfr;
    repeat match type of Hfr with
    | context [match c_count (sh c1) with _ => _ end] => destruct (c_count (sh c1)) as [|[|?]]; simpl in Hfr
    | context [if ?b then _ else _] => destruct b eqn:?; simpl in Hfr
    end; inversion Hfr; subst; clear Hfr; simpl in Hh; facts; try congruence;
    first [ apply (f_equal (@length _)) in Hh; simpl in Hh; lia | inversion Hh; subst; discriminate].
  - destruct Hx as (Hx & -> & He). simpl in Hfr. unfold c_enter, c_inside in Hfr; simpl in Hfr.
    rewrite HL in Hfr. simpl in Hfr. inversion Hfr; subst. simpl in Hh.
    apply (f_equal (@length _)) in Hh; simpl in Hh; lia.
  - destruct Hx as (Hx & -> & He). simpl in Hfr. unfold c_inside in Hfr; simpl in Hfr.
    rewrite HL in Hfr. simpl in Hfr. inversion Hfr; subst. simpl in Hh.
    apply (f_equal (@length _)) in Hh; simpl in Hh; lia.
  - assert (d1 (Ready ccv l op' CFirst) = 0); [|simpl in *; lia].
    pose proof (sumw_ge d1 Ht). simpl in *. lia.
Qed.

Lemma not_early n m f c t op r h1 h2 : 0 < m ->
  reachable P0 n (clatch_new m f) tt c -> c_no_reset (hist c) ->
  hist c = h1 ++ EDone t op r :: h2 -> c_says_open op r = true -> m <= downs h2.
Proof.
  intros Hm Hr Hnr Hh Hop.
  destruct (@event_step _ _ _ _ _ _ _ P0 _ _ _ _ _ _ _ Hr Hh) as (c1 & lb & c2 & Hr1 & Hs & E1 & E2 & _).
  rewrite <- E1. apply (done_count n m f c1 lb c2 t op r); auto.
  - rewrite E1. rewrite Hh in Hnr. apply no_reset_app in Hnr. eapply no_reset_tail; eauto.
  - rewrite E1. auto.
Qed.

Section Released.
  Variables (n m f t : nat) (h0 : list cevent).
  Hypothesis Hm : 0 < m.

  Definition returned_in (h : list cevent) : Prop :=
    exists op r, In (EDone t op r) h /\ wret op r = true.

  Definition held (c : clconf) : Prop :=
    exists h, hist c = h ++ h0 /\
      (returned_in h \/
       (completions (hist c) = 0 /\ exists x, nth_error (thr c) t = Some x /\ w1 x = 1)).

  Lemma returns_cons e h : returned_in h -> returned_in (e :: h).
  Proof. intros (op & r & H & H'). exists op, r. split; auto. right; auto. Qed.

  Lemma held_step c lb c' : reachable P0 n (clatch_new m f) tt c -> c_no_reset (hist c') ->
    step P0 c lb = Some c' -> held c -> held c'.
  Proof.
    intros Hr Hnr Hs (h & Hh & Hq).
    assert (Hnr0 : c_no_reset (hist c)).
    { destruct (step_hist _ _ _ Hs) as [E|[(t1 & op1 & E)|(t1 & op1 & r1 & E)]]; rewrite E in Hnr;
        eauto using no_reset_tail. }
    destruct Hq as [Hq|[H0 (x & Hx & Hw)]].
    { destruct (step_hist _ _ _ Hs) as [E|[(t1 & op1 & E)|(t1 & op1 & r1 & E)]]; unfold held; rewrite E, Hh.
      - exists h; auto.
      - exists (ECall cres t1 op1 :: h). split; auto. left. apply returns_cons; auto.
      - exists (EDone t1 op1 r1 :: h). split; auto. left. apply returns_cons; auto. }
    pose proof (Inv_reachable _ _ _ _ Hr Hm Hnr0) as HN.
    apply Num_cnt in HN as (H1 & H2 & H3).
    assert (HW : c_wait (sh c) <> 0).
    { rewrite (k_wait _ _ _ _ _ _ _ H3). pose proof (sumw_ge w1 Hx). lia. }
    apply step_inv in Hs. destruct Hs as
     [t' l op' Ht Hp ->|t' ps e l op' k s' ns o thr' Ht Hfr Hd ->|t' p l n' ns thr' Ht Hd ->
     |t' l op' cv k Ht ->|t' l op' cv k k' Ht Hk ->|t' l op' cv k k' Ht Hk ->|t' l op' k k' Ht Hk ->];
     unfold held; cbn [hist thr].
    - exists (ECall cres t' op' :: h). rewrite Hh. split; auto. right. rewrite <- Hh. split; [exact H0|].
      destruct (Nat.eq_dec t' t) as [->|Hne].
      + rewrite Ht in Hx. injection Hx as <-. discriminate.
      + exists x. rewrite nth_error_upd_other; auto.
    - pose proof (deliver_all_woken Hd) as Hwk. cbn [frag clprog] in Hfr.
      destruct (Nat.eq_dec t' t) as [->|Hne].
      + rewrite Ht in Hx. injection Hx as <-. simpl in Hw. destruct k; try discriminate.
        pose proof (Forall_nth_error H1 Ht) as (Hop & -> & He). simpl in Hfr. unfold c_inside in Hfr.
        destruct (c_leave (sh c) =? 0) eqn:El.
        * inversion Hfr; subst. simpl. exists h. split; auto. right. split; [auto|].
          exists (Asleep l op' CVLeave (CInside op')). split; auto.
          apply nth_error_upd_same. simpl in Hd. injection Hd as <-. eapply nth_error_lt; eauto.
        * facts. assert (Hz : c_count (sh c) = 0).
          { pose proof (k_leave _ _ _ _ _ _ _ H3 El). destruct (Nat.eq_dec (c_count (sh c)) 0) as [|Hn]; auto.
            pose proof (k_pos _ _ _ _ _ _ _ H3 Hn). lia. }
          unfold c_body, c_leave_with in Hfr. rewrite Hz in Hfr.
          destruct op'; try discriminate; simpl in Hfr; inversion Hfr; subst; simpl; rewrite Hh;
            (eexists (_ :: h); split; [reflexivity|]; left; do 2 eexists; split; [left; reflexivity|reflexivity]).
      + assert (Hx' : exists y, nth_error thr' t = Some y /\ w1 y = 1).
        { destruct (proj2 Hwk t x Hx) as [H|[Ha H]]; [exists x; auto|].
          exists (wake x). rewrite w1_wake. auto. }
        destruct Hx' as (y & Hy & Hwy).
        assert (exists h', snd (after P0 t' l op' o (hist c)) = h' ++ h0 /\
                 completions (snd (after P0 t' l op' o (hist c))) = 0) as (h' & E1 & E2).
        { assert (Hd' : forall r, (o = ORet ck ccv r \/ exists ns', o = OFin ck r ns') -> forall g, r <> CCompleted g).
          { intros r Ho. destruct (frag_done _ _ _ _ _ _ _ _ Hfr Ho) as [(g & _ & _ & Hc)|H]; auto; lia. }
          destruct o as [r|r ns'| | |]; simpl; try (exists h; auto; fail).
          - exists (EDone t' op' r :: h). rewrite Hh. split; auto. rewrite <- Hh, compl_done.
            specialize (Hd' r (or_introl eq_refl)). destruct r; auto. exfalso. eapply Hd'; eauto.
          - exists (EDone t' op' r :: h). rewrite Hh. split; auto. rewrite <- Hh, compl_done.
            specialize (Hd' r (or_intror (ex_intro _ ns' eq_refl))). destruct r; auto. exfalso. eapply Hd'; eauto. }
        exists h'. split; auto. right. split; auto. exists y. rewrite nth_error_upd_other; auto.
    - pose proof (Forall_nth_error H1 Ht) as Hx'. simpl in Hx'. contradiction.
    - exists h. split; auto. right. split; auto.
      destruct (Nat.eq_dec t' t) as [->|Hne].
      + rewrite Ht in Hx. injection Hx as <-. exists (Ready ccv l op' k). split; auto.
        apply nth_error_upd_same. eapply nth_error_lt; eauto.
      + exists x. rewrite nth_error_upd_other; auto.
    - pose proof (Forall_nth_error H1 Ht) as Hx'. destruct k; simpl in *; try discriminate; tauto.
    - simpl in Hk. discriminate.
    - simpl in Hk. discriminate.
  Qed.

  Lemma held_run c ls c' : reachable P0 n (clatch_new m f) tt c -> c_no_reset (hist c') ->
    run P0 c ls = Some c' -> held c -> held c'.
  Proof.
    revert c; induction ls as [|lb ls IH]; intros c Hr Hnr Hrun Hh; simpl in Hrun.
    - injection Hrun as <-. auto.
    - destruct (step P0 c lb) as [c1|] eqn:Hs; [|discriminate].
      apply (IH c1); auto; [eapply reachable_step; eauto|]. eapply held_step; eauto.
      destruct (run_hist P0 _ Hrun) as [h E]. rewrite E in Hnr. eapply no_reset_app; eauto.
  Qed.
End Released.

Lemma quiet_phase n m f c : 0 < m -> reachable P0 n (clatch_new m f) tt c -> c_no_reset (hist c) ->
  quiescent c -> sumw d2 (thr c) = 0 /\ c_leave (sh c) = 0 /\
  (sumw d1 (thr c) = 1 -> sumw w1 (thr c) = 0) /\ sumw pw (thr c) = 0.
Proof.
  intros Hm Hr Hnr Hq. pose proof (Inv_reachable _ _ _ _ Hr Hm Hnr) as HN.
  apply Num_cnt in HN as (H1 & H2 & H3).
  assert (HD2 : sumw d2 (thr c) = 0).
  { destruct (Nat.eq_dec (sumw d2 (thr c)) 0) as [|Hn]; auto. exfalso.
    destruct (sumw_pos d2 (l:=thr c)) as (i & x & Hx & Hw); [lia|].
    pose proof (proj1 (forallb_forall _ _) Hq x (nth_error_In _ _ Hx)) as Hset.
    pose proof (Forall_nth_error H2 Hx) as Hs. pose proof (Forall_nth_error H1 Hx) as Hst.
    destruct x as [| |l op cv k| |]; simpl in Hset, Hw; try discriminate; try lia.
    destruct k; try lia. destruct cv; simpl in Hs; try contradiction.
    pose proof (k_one _ _ _ _ _ _ _ H3). pose proof (k_leave' _ _ _ _ _ _ _ H3).
    rewrite (k_wait _ _ _ _ _ _ _ H3) in Hs.
    destruct (sumw_pos w1 (l:=thr c)) as (j & y & Hy & Hwy); [lia|].
    pose proof (proj1 (forallb_forall _ _) Hq y (nth_error_In _ _ Hy)) as Hsety.
    pose proof (Forall_nth_error H2 Hy) as Hsy.
    destruct y as [| |l' op' cv' k'| |]; simpl in Hsety, Hwy; try discriminate; try lia.
    destruct k'; try lia. destruct cv'; simpl in Hsy; try contradiction. lia. }
  split; auto. split; [|split].
  - destruct (Nat.eq_dec (c_leave (sh c)) 0) as [|Hn]; auto. pose proof (k_leave _ _ _ _ _ _ _ H3 Hn). lia.
  - intros HD1. destruct (sumw_pos d1 (l:=thr c)) as (i & x & Hx & Hw); [lia|].
    pose proof (proj1 (forallb_forall _ _) Hq x (nth_error_In _ _ Hx)) as Hset.
    pose proof (Forall_nth_error H2 Hx) as Hs.
    destruct x as [| |l op cv k| |]; simpl in Hset, Hw; try discriminate; try lia.
    destruct k; try lia. destruct cv; simpl in Hs; try contradiction.
    rewrite <- (k_wait _ _ _ _ _ _ _ H3). auto.
  - apply sumw_zero. intros x Hin. pose proof (proj1 (forallb_forall _ _) Hq x Hin) as Hset. destruct x; auto; discriminate.
Qed.

Lemma released n m f c1 t op ls c2 : 0 < m ->
  reachable P0 n (clatch_new m f) tt c1 -> c_blocked c1 t op -> downs (hist c1) < m ->
  run P0 c1 ls = Some c2 -> quiescent c2 -> c_no_reset (hist c2) -> m <= downs (hist c2) ->
  (exists h, hist c2 = h ++ hist c1 /\ c_returns_in t h) /\ completions (hist c2) = 1 /\
  forall t', ~ c_blocked c2 t' CCountDown.
Proof.
  intros Hm Hr1 (l & cv & k & Hb) Hd1 Hrun Hq Hnr2 Hd2.
  destruct (run_hist P0 _ Hrun) as [h Eh].
  assert (Hnr1 : c_no_reset (hist c1)) by (rewrite Eh in Hnr2; eapply no_reset_app; eauto).
  assert (Hr2 : reachable P0 n (clatch_new m f) tt c2) by (eapply reachable_run; eauto).
  pose proof (Inv_reachable _ _ _ _ Hr1 Hm Hnr1) as HN1. apply Num_cnt in HN1 as (A1 & A2 & A3).
  pose proof (Inv_reachable _ _ _ _ Hr2 Hm Hnr2) as HN2. apply Num_cnt in HN2 as (B1 & B2 & B3).
  assert (Hc1 : c_count (sh c1) <> 0).
  { intros Hz. pose proof (k_downs _ _ _ _ _ _ _ A3). lia. }
  pose proof (k_pos _ _ _ _ _ _ _ A3 Hc1) as Hp1.
  assert (Hin : w1 (Asleep l op cv k) = 1).
  { pose proof (Forall_nth_error A2 Hb) as Hs. pose proof (sumw_ge d1 Hb). pose proof (sumw_ge d2 Hb).
    destruct cv, k; simpl in Hs; try contradiction; simpl in *; try lia.
    pose proof (k_leave _ _ _ _ _ _ _ A3 Hs). lia. }
  assert (HH : held t (hist c1) c2).
  { apply (held_run n m f t (hist c1) Hm c1 ls c2); auto. exists []. split; auto. right. split; [lia|]. exists (Asleep l op cv k). auto. }
  destruct (quiet_phase _ _ _ _ Hm Hr2 Hnr2 Hq) as (Q1 & Q2 & Q3 & Q4).
  assert (Hc2 : c_count (sh c2) = 0).
  { destruct (Nat.eq_dec (c_count (sh c2)) 0) as [|Hn]; auto. pose proof (k_downs' _ _ _ _ _ _ _ B3 Hn). 
    pose proof (k_le _ _ _ _ _ _ _ B3). lia. }
  pose proof (k_zero _ _ _ _ _ _ _ B3 Hm Hc2) as Hz2.
  assert (HR : (exists h, hist c2 = h ++ hist c1 /\ c_returns_in t h) /\ completions (hist c2) = 1).
  { destruct HH as (h' & Eh' & [Hret|(Hc0 & x & Hx & Hwx)]).
    - destruct Hret as (op' & r & Hin' & Hwr). split; [exists h'; split; auto; exists op', r; auto|].
      destruct (Nat.eq_dec (completions (hist c2)) 0) as [Hc0|]; [|lia]. exfalso.
      pose proof (k_early _ _ _ _ _ _ _ B3 ltac:(lia)) as He. Transparent wdone. unfold wdone in He. Opaque wdone.
      apply length_zero_iff_nil in He.
      assert (In (EDone t op' r) (filter (fun e => match e with EDone _ op r => wret op r | _ => false end) (hist c2))) as Hf.
      { apply filter_In. split; [rewrite Eh'; apply in_app_iff; auto|exact Hwr]. }
      rewrite He in Hf. destruct Hf.
    - exfalso. assert (HD1 : sumw d1 (thr c2) = 1) by lia. specialize (Q3 HD1).
      pose proof (sumw_ge w1 Hx). lia. }
  destruct HR as [HR1 HR2]. split; auto. split; auto.
  intros t' (l' & cv' & k' & Hb'). pose proof (Forall_nth_error B1 Hb') as Hst. pose proof (Forall_nth_error B2 Hb') as Hsl.
  pose proof (sumw_ge d1 Hb'). pose proof (sumw_ge d2 Hb').
  destruct cv', k'; simpl in Hsl; try contradiction; simpl in *; try lia; destruct Hst as (_ & _ & ?); discriminate.
Qed.

Lemma completes_once n m f c : 0 < m -> reachable P0 n (clatch_new m f) tt c -> c_no_reset (hist c) ->
  completions (hist c) <= 1.
Proof.
  intros Hm Hr Hnr. pose proof (Inv_reachable _ _ _ _ Hr Hm Hnr) as HN.
  apply Num_cnt in HN as (_ & _ & H3). pose proof (k_one _ _ _ _ _ _ _ H3). lia.
Qed.

Definition cl_rank (k : ck) : nat :=
  match k with CStart _ => 3 | CEnter _ => 2 | CInside _ | CFirst => 1 | _ => 0 end.

Lemma cl_ranked : ranked P0 cl_rank.
Proof.
  intros t e k s s' ns o Hf. cbn [frag clprog] in Hf.
  destruct k as [[]| []| []|[]| | | | |]; simpl in Hf;
    unfold c_enter, c_inside, c_first, c_second, c_body, c_leave_with in Hf; simpl in Hf;
    repeat match type of Hf with
    | context [match c_count s with _ => _ end] => destruct (c_count s) as [|[|?]]; simpl in Hf
    | context [if ?b then _ else _] => destruct b eqn:?; simpl in Hf
    end;
    inversion Hf; subst; clear Hf; simpl; auto; try (left; lia); right; split; auto.
Qed.
