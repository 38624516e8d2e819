(** * Proofs about the Windows condition variables *)
From Verif Require Import MonWake WC_Model WC_Spec.
Set Implicit Arguments.
Notation P := wcprog.
Notation tst := (tstat ck cop nat unit).
Local Arguments Nat.eqb : simpl never.
Local Arguments Nat.min : simpl never.
Local Arguments Nat.sub : simpl never.

Definition b2n (b : bool) : nat := if b then 1 else 0.
Definition kW (g : nat) (k : ck) : nat := match k with KSem _ g' _ | KChk _ g' _ => b2n (g =? g') | _ => 0 end.
Definition kC (g : nat) (k : ck) : nat := match k with KChk _ g' _ => b2n (g =? g') | _ => 0 end.
Definition kM (g : nat) (k : ck) : nat := match k with KRem g' _ => b2n (g =? g') | _ => 0 end.
Definition kP (p : nat) (k : ck) : nat := match k with KSem _ _ p' | KChk _ _ p' => b2n (p =? p') | _ => 0 end.
Definition wgt (w : ck -> nat) (x : tst) : nat := match x with Ready _ _ _ k | Asleep _ _ _ k => w k | _ => 0 end.
Lemma wgt_wake w x : wgt w (wake x) = wgt w x. Proof. destruct x; reflexivity. Qed.
Definition SW (c : wcconf) g := sumw (wgt (kW g)) (thr c).
Definition SC (c : wcconf) g := sumw (wgt (kC g)) (thr c).
Definition SM (c : wcconf) g := sumw (wgt (kM g)) (thr c).
Definition SP (c : wcconf) p := sumw (wgt (kP p)) (thr c).

Definition wfact (u : nat -> nat) (s : cv) (t g p : nat) : Prop :=
  g < ne s /\ ep (ent s g) = p /\ (p = cur s -> owed t (log s) <= u g /\ all_since_served t (log s) = false /\ (~ In AOne (log s) -> all_since t (log s) = false)).
Definition kfact (u : nat -> nat) (s : cv) (t : nat) (k : ck) : Prop :=
  match k with KSem _ g p | KChk _ g p => wfact u s t g p | KRem g _ => g < ne s | _ => True end.
Definition stat (u : nat -> nat) (s : cv) (t : nat) (x : tst) : Prop :=
  match x with
  | Idle _ _ _ _ => True
  | Ready _ _ _ k => kfact u s t k
  | Asleep _ _ g k => kfact u s t k /\ (exists tm p, k = KSem tm g p) /\ sem (ent s g) = 0
  | _ => False
  end.

Record Inv (u : nat -> nat) (c : wcconf) : Prop := {
  i_st : forall t x, nth_error (thr c) t = Some x -> stat u (sh c) t x;
  i_w : forall g, g < ne (sh c) -> wtr (ent (sh c) g) = SW c g + SM c g;
  i_e : forall g, g < ne (sh c) -> ep (ent (sh c) g) <= cur (sh c);
  i_c : forall g, g < ne (sh c) -> ep (ent (sh c) g) = cur (sh c) ->
          Nat.min (u g) (SW c g) <= sem (ent (sh c) g) + SC c g /\ u g <= wk (sh c) (cur (sh c)) /\ SW c g <= u g + tot (sh c) /\ (ntf (ent (sh c) g) = false -> u g = 0) /\
          (~ In g (live (sh c)) -> wtr (ent (sh c) g) = 0);
  i_d : forall g, g < ne (sh c) -> ep (ent (sh c) g) < cur (sh c) -> SW c g <= sem (ent (sh c) g) + SC c g;
  i_p : SP c (cur (sh c)) <= tot (sh c) + wk (sh c) (cur (sh c));
  i_q : forall p, p < cur (sh c) -> SP c p <= wk (sh c) p;
  i_z : forall p, cur (sh c) < p -> wk (sh c) p = 0;
  i_l : forall g, In g (live (sh c)) -> g < ne (sh c) /\ ep (ent (sh c) g) = cur (sh c);
  i_1 : ~ In AOne (log (sh c)) -> wk (sh c) (cur (sh c)) = 0;
  i_t : tot (sh c) = unserved (log (sh c)) }.

Lemma b2n_refl g : b2n (g =? g) = 1. Proof. now rewrite Nat.eqb_refl. Qed.
Lemma b2n_le b : b2n b <= 1. Proof. destruct b; cbn; lia. Qed.
Lemma setf_same A (f : nat -> A) i x : setf f i x i = x. Proof. unfold setf. now rewrite Nat.eqb_refl. Qed.
Lemma setf_other A (f : nat -> A) i x j : j <> i -> setf f i x j = f j. Proof. unfold setf. intros H. destruct (Nat.eqb_spec j i); congruence. Qed.

(** a generation that does not exist has nobody *)
Lemma SW_new u (c : wcconf) g : (forall t x, nth_error (thr c) t = Some x -> stat u (sh c) t x) -> ne (sh c) <= g -> SW c g = 0 /\ SM c g = 0 /\ SC c g = 0.
Proof.
  intros H Hg. unfold SW, SM, SC. repeat split; apply sumw_zero; intros x Hx; apply In_nth_error in Hx as [t Ht]; specialize (H _ _ Ht);
  destruct x as [l|l op k|l op cv k|l ns|]; cbn; auto; cbn in H; try (destruct H as [H _]); destruct k; cbn in *; auto; try (destruct H as [H _]);
  match goal with |- context [g =? ?a] => destruct (Nat.eqb_spec g a); cbn; auto; lia end.
Qed.
(** the members of a generation share its wake_sem *)
Lemma SW_SP u (c : wcconf) g : (forall t x, nth_error (thr c) t = Some x -> stat u (sh c) t x) -> SW c g <= SP c (ep (ent (sh c) g)).
Proof.
  intros H. unfold SW, SP. apply sumw_le. intros x Hx. apply In_nth_error in Hx as [t Ht]. specialize (H _ _ Ht).
  assert (K : forall k, kfact u (sh c) t k -> kW g k <= kP (ep (ent (sh c) g)) k).
  { intros k Hk. destruct k; cbn in *; auto; destruct Hk as (_ & Hk & _); destruct (Nat.eqb_spec g g0) as [<-|]; cbn; try lia; rewrite Hk, Nat.eqb_refl; cbn; lia. }
  destruct x as [l|l op k|l op cv k|l ns|]; cbn; auto; cbn in H; apply K; tauto.
Qed.
Lemma SC_SW c g : SC c g <= SW c g.
Proof. apply sumw_le. intros x _. destruct x; cbn; auto; destruct k; cbn; lia. Qed.

(** the generic part of a step of thread [t] from [k] to [o] *)
Definition wo (w : ck -> nat) (o : outcome ck nat cres) : nat := match o with OYield _ _ k | OSleep _ _ k => w k | _ => 0 end.
Lemma step_sums (c : wcconf) t l op k ps ns thr' o h : nth_error (thr c) t = Some (Ready nat l op k) -> deliver_all P ns ps (thr c) = Some thr' ->
  match o with OFin _ _ _ => False | _ => True end ->
  forall w, sumw (wgt w) (upd thr' t (fst (after P t l op o h))) + w k = sumw (wgt w) (thr c) + wo w o.
Proof.
  intros Ht Hd Ho w. pose proof (deliver_all_woken Hd) as Hw. assert (Ht' : nth_error thr' t = Some (Ready nat l op k)) by (apply (woken_not_asleep Hw Ht); reflexivity).
  rewrite <- (woken_sumw_eq (wgt w) Hw) by (intros x _; apply wgt_wake). pose proof (sumw_upd (wgt w) (fst (after P t l op o h)) Ht') as U. cbn [wgt] in U. rewrite U. f_equal. destruct o; cbn; auto; contradiction.
Qed.
Definition at_k (c : wcconf) t k : Prop := exists l op, nth_error (thr c) t = Some (Ready nat l op k) \/ exists g, nth_error (thr c) t = Some (Asleep l op g k).
Lemma at_SP c t k p : at_k c t k -> kP p k <= SP c p.
Proof. intros (l & op & [H|(g & H)]); exact (sumw_ge (wgt (kP p)) H). Qed.
Lemma stat_step u u' (c : wcconf) s' t l op k ps ns thr' o : (forall t x, nth_error (thr c) t = Some x -> stat u (sh c) t x) ->
  nth_error (thr c) t = Some (Ready nat l op k) -> deliver_all P ns ps (thr c) = Some thr' ->
  stat u' s' t (fst (after P t l op o (hist c))) ->
  (forall t' k', t' <> t -> at_k c t' k' -> kfact u (sh c) t' k' -> kfact u' s' t' k') ->
  (forall g, g < ne (sh c) -> sem (ent (sh c) g) = 0 -> sem (ent s' g) = 0 \/ In (NAll g) ns) ->
  forall t' x, nth_error (upd thr' t (fst (after P t l op o (hist c)))) t' = Some x -> stat u' s' t' x.
Proof.
  intros H Ht Hd Hme Hk Hs t' x Hx. apply nth_error_upd in Hx as [(<- & -> & _)|(Hn & Hx)]; auto. pose proof (deliver_all_woken Hd) as Hw.
  destruct (nth_error (thr c) t') as [x0|] eqn:Hx0; [|apply nth_error_None in Hx0; assert (t' < length thr') by (apply nth_error_Some; congruence); rewrite (woken_length Hw) in H0; lia].
  pose proof (H _ _ Hx0) as S0. assert (Hn' : t' <> t) by congruence.
  destruct (proj2 Hw _ _ Hx0) as [E'|[Ha E']]; rewrite E' in Hx; injection Hx as <-.
  - destruct x0 as [l0|l0 op0 k0|l0 op0 g k0|l0 ns0|]; cbn in S0 |- *; auto; [apply Hk; unfold at_k; eauto|]. destruct S0 as (S1 & S2 & S3). split; [apply Hk; unfold at_k; eauto|]. split; auto. destruct S2 as (tm & p & ->). destruct S1 as (S1 & _).
    destruct (Hs g S1 S3) as [E|E]; auto. exfalso. pose proof (deliver_all_NAll P g ns ps _ Hd E) as Hx'. pose proof (Forall_nth_error Hx' E') as Hy. unfold not_on in Hy. cbn in Hy. rewrite Nat.eqb_refl in Hy. discriminate.
  - destruct x0 as [l0|l0 op0 k0|l0 op0 g k0|l0 ns0|]; try discriminate. cbn in S0 |- *. apply Hk; try tauto. unfold at_k; eauto.
Qed.

Lemma inb_In g l : inb g l = true <-> In g l.
Proof. unfold inb. rewrite existsb_exists. split; [intros (x & Hx & E); apply Nat.eqb_eq in E; now subst|intros H; exists g; split; auto; apply Nat.eqb_refl]. Qed.
Lemma inb_nIn g l : inb g l = false <-> ~ In g l.
Proof. rewrite <- inb_In. destruct (inb g l); split; congruence. Qed.

Ltac cb := cbn [tot ne ent live cur wk log sem wtr ntf ep set_ent say release] in *.
Ltac eqb := repeat match goal with
  | |- context [?a =? ?b] => destruct (Nat.eqb_spec a b); try subst
  | H : context [?a =? ?b] |- _ => destruct (Nat.eqb_spec a b); try subst
  end.

(** what a step of thread [t], which goes from [k] to [o], does to the sums of the threads' weights *)
Record stepped (u : nat -> nat) (c c' : wcconf) (t : nat) (k : ck) (o : outcome ck nat cres) (u' : nat -> nat) : Prop := {
  HI_ : Inv u c;
  U_ : forall w, sumw (wgt w) (thr c') + w k = sumw (wgt w) (thr c) + wo w o;
  St_ : forall t x, nth_error (thr c') t = Some x -> stat u' (sh c') t x;
  Kf_ : kfact u (sh c) t k }.
Definition ueq (c c' : wcconf) k o := forall w, sumw (wgt w) (thr c') + w k = sumw (wgt w) (thr c) + wo w o.
Lemma UW c c' k o (U : ueq c c' k o) g : SW c' g + kW g k = SW c g + wo (kW g) o. Proof. apply U. Qed.
Lemma UC c c' k o (U : ueq c c' k o) g : SC c' g + kC g k = SC c g + wo (kC g) o. Proof. apply U. Qed.
Lemma UM c c' k o (U : ueq c c' k o) g : SM c' g + kM g k = SM c g + wo (kM g) o. Proof. apply U. Qed.
Lemma UP c c' k o (U : ueq c c' k o) p : SP c' p + kP p k = SP c p + wo (kP p) o. Proof. apply U. Qed.

(** nothing changes: a thread goes to where it weighs nothing *)
Lemma ok_none u c c' t k o u' : stepped u c c' t k o u' -> sh c' = sh c -> u' = u -> (forall g, kW g k = 0 /\ kC g k = 0 /\ kM g k = 0) -> (forall p, kP p k = 0) -> (forall w, (w = kP \/ w = kW \/ w = kC \/ w = kM) -> forall g, wo (w g) o = 0) -> Inv u' c'.
Proof.
  intros [HI U St Kf] Es Eu H0 Hp Ho. subst u'.
  assert (A : forall g, SW c' g = SW c g /\ SC c' g = SC c g /\ SM c' g = SM c g /\ SP c' g = SP c g).
  { intros g. pose proof (UW U g); pose proof (UC U g); pose proof (UM U g); pose proof (UP U g). destruct (H0 g) as (? & ? & ?). specialize (Hp g). pose proof (fun w H => Ho w H g) as Ho'.
    rewrite Ho' in * by auto 10. lia. }
  destruct HI as [a1 a2 a3 a4 a5 a6 a7 a8 a9 a10 a11]. constructor; rewrite ?Es in *; auto; intros.
  - destruct (A g) as (-> & _ & -> & _). auto.
  - destruct (A g) as (-> & -> & _ & _). auto.
  - destruct (A g) as (-> & -> & _ & _). auto.
  - destruct (A (cur (sh c))) as (_ & _ & _ & ->). auto.
  - destruct (A p) as (_ & _ & _ & ->). auto.
Qed.

(** a notification that finds nobody to notify *)
Lemma ok_say u c c' t k o u' a : stepped u c c' t k o u' -> a = AOne \/ a = AAll -> tot (sh c) = 0 -> sh c' = say a (sh c) -> u' = u -> (forall g, kW g k = 0 /\ kC g k = 0 /\ kM g k = 0) -> (forall p, kP p k = 0) -> o = ORet ck nat ROk -> Inv u' c'.
Proof.
  intros [HI U St Kf] Ea Et Es Eu H0 Hp Ho. subst u' o.
  assert (A : forall g, SW c' g = SW c g /\ SC c' g = SC c g /\ SM c' g = SM c g /\ SP c' g = SP c g).
  { intros g. pose proof (UW U g); pose proof (UC U g); pose proof (UM U g); pose proof (UP U g). destruct (H0 g) as (? & ? & ?). specialize (Hp g). cbn in *. lia. }
  destruct HI as [a1 a2 a3 a4 a5 a6 a7 a8 a9 a10 a11]. constructor; rewrite ?Es in *; cb; auto; intros.
  - destruct (A g) as (-> & _ & -> & _). auto.
  - destruct (A g) as (-> & -> & _ & _). auto.
  - destruct (A g) as (-> & -> & _ & _). auto.
  - destruct (A (cur (sh c))) as (_ & _ & _ & ->). auto.
  - destruct (A p) as (_ & _ & _ & ->). auto.
  - apply a10. intros X. apply H. now right.
  - destruct Ea as [ -> | -> ]; cbn; lia.
Qed.

(** a thread begins to wait in a new generation *)
Lemma ok_new u c c' t k o u' t0 tm L : stepped u c c' t k o u' -> sh c' = MkC (S (tot (sh c))) (S (ne (sh c))) (setf (ent (sh c)) (ne (sh c)) (MkE 0 1 false (cur (sh c)))) L (cur (sh c)) (wk (sh c)) (AReg t0 :: log (sh c)) ->
  (forall g, In g L <-> In g (live (sh c)) \/ g = ne (sh c)) ->
  u' = setf u (ne (sh c)) 0 -> (forall g, kW g k = 0 /\ kC g k = 0 /\ kM g k = 0) -> (forall p, kP p k = 0) -> o = OYield nat cres (KSem tm (ne (sh c)) (cur (sh c))) -> Inv u' c'.
Proof.
  intros [HI U St Kf] Es HL Eu H0 Hp Ho. subst u' o. pose proof HI as [a1 a2 a3 a4 a5 a6 a7 a8 a9 a10 a11].
  assert (A : forall g, SW c' g = SW c g + b2n (g =? ne (sh c)) /\ SC c' g = SC c g /\ SM c' g = SM c g).
  { intros g. pose proof (UW U g); pose proof (UC U g); pose proof (UM U g). destruct (H0 g) as (? & ? & ?). cbn in *. lia. }
  assert (B : forall p, SP c' p = SP c p + b2n (p =? cur (sh c))) by (intros p; pose proof (UP U p); specialize (Hp p); cbn in *; lia).
  pose proof (@SW_new u c (ne (sh c)) a1 (le_n _)) as (N1 & N2 & N3).
  assert (O : forall g, g < S (ne (sh c)) -> g <> ne (sh c) -> g < ne (sh c)) by lia.
  constructor; rewrite ?Es in *; cb; auto; intros.
  - destruct (A g) as (-> & _ & ->). destruct (Nat.eq_dec g (ne (sh c))) as [ -> |Hn]; [rewrite setf_same, b2n_refl; cb; lia|].
    rewrite setf_other by auto. rewrite a2 by lia. destruct (Nat.eqb_spec g (ne (sh c))); [congruence|cbn; lia].
  - destruct (Nat.eq_dec g (ne (sh c))) as [ -> |Hn]; [rewrite setf_same; cb; lia|rewrite setf_other by auto; auto].
  - destruct (A g) as (-> & -> & _). destruct (Nat.eq_dec g (ne (sh c))) as [ -> |Hn].
    + rewrite !setf_same, b2n_refl in *; cb. repeat split; try lia. intros X. exfalso. apply X. apply HL. auto.
    + rewrite !setf_other in * by auto. destruct (a4 g (O _ H Hn) H1) as (b1 & b2 & b3 & b4 & b5). destruct (Nat.eqb_spec g (ne (sh c))); [congruence|cbn]. rewrite Nat.add_0_r. repeat split; auto; try lia.
      intros X. apply b5. intros Y. apply X. apply HL. auto.
  - destruct (A g) as (-> & -> & _). destruct (Nat.eq_dec g (ne (sh c))) as [ -> |Hn]; [rewrite setf_same in *; cb; lia|]. rewrite !setf_other in * by auto. specialize (a5 g (O _ H Hn) H1).
    destruct (Nat.eqb_spec g (ne (sh c))); [congruence|cbn]; lia.
  - rewrite B, b2n_refl. lia.
  - rewrite B. destruct (Nat.eqb_spec p (cur (sh c))); [lia|cbn]. rewrite Nat.add_0_r. auto.
  - apply HL in H as [H| ->]; [|rewrite setf_same; cb; lia]. destruct (a9 g H). rewrite setf_other by lia. split; [lia|auto].
  - apply a10. intros X. apply H. now right.
  - cbn. lia.
Qed.

(** a thread begins to wait in the last generation *)
Lemma ok_join u c c' t k o u' t0 tm g0 : stepped u c c' t k o u' -> sh c' = MkC (S (tot (sh c))) (ne (sh c)) (setf (ent (sh c)) g0 (MkE (sem (ent (sh c) g0)) (S (wtr (ent (sh c) g0))) false (ep (ent (sh c) g0)))) (live (sh c)) (cur (sh c)) (wk (sh c)) (AReg t0 :: log (sh c)) ->
  In g0 (live (sh c)) -> ntf (ent (sh c) g0) = false -> u' = u -> (forall g, kW g k = 0 /\ kC g k = 0 /\ kM g k = 0) -> (forall p, kP p k = 0) -> o = OYield nat cres (KSem tm g0 (ep (ent (sh c) g0))) -> Inv u' c'.
Proof.
  intros [HI U St Kf] Es HL Hnt Eu H0 Hp Ho. subst u' o. pose proof HI as [a1 a2 a3 a4 a5 a6 a7 a8 a9 a10 a11]. destruct (a9 _ HL) as [G1 G2].
  assert (A : forall g, SW c' g = SW c g + b2n (g =? g0) /\ SC c' g = SC c g /\ SM c' g = SM c g).
  { intros g. pose proof (UW U g); pose proof (UC U g); pose proof (UM U g). destruct (H0 g) as (? & ? & ?). cbn in *. lia. }
  assert (B : forall p, SP c' p = SP c p + b2n (p =? cur (sh c))) by (intros p; pose proof (UP U p); specialize (Hp p); cbn in *; rewrite G2 in *; lia).
  destruct (a4 g0 G1 G2) as (c1 & c2 & c3 & c4 & c5). specialize (c4 Hnt).
  constructor; rewrite ?Es in *; cb; auto; intros.
  - destruct (A g) as (-> & _ & ->). destruct (Nat.eq_dec g g0) as [ -> |Hn]; [rewrite setf_same, b2n_refl; cb; rewrite a2 by auto; lia|].
    rewrite setf_other by auto. rewrite a2 by lia. destruct (Nat.eqb_spec g g0); [congruence|cbn; lia].
  - destruct (Nat.eq_dec g g0) as [ -> |Hn]; [rewrite setf_same; cb; lia|rewrite setf_other by auto; auto].
  - destruct (A g) as (-> & -> & _). destruct (Nat.eq_dec g g0) as [ -> |Hn].
    + rewrite !setf_same, b2n_refl in *; cb. repeat split; auto; try lia. intros X. contradiction.
    + rewrite !setf_other in * by auto. destruct (a4 g H H1) as (b1 & b2 & b3 & b4 & b5). destruct (Nat.eqb_spec g g0); [congruence|cbn]. rewrite Nat.add_0_r. repeat split; auto; try lia.
  - destruct (A g) as (-> & -> & _). destruct (Nat.eq_dec g g0) as [ -> |Hn]; [rewrite setf_same in *; cb; lia|]. rewrite !setf_other in * by auto. specialize (a5 g H H1).
    destruct (Nat.eqb_spec g g0); [congruence|cbn]; lia.
  - rewrite B, b2n_refl. lia.
  - rewrite B. destruct (Nat.eqb_spec p (cur (sh c))); [lia|cbn]. rewrite Nat.add_0_r. auto.
  - destruct (a9 g H). destruct (Nat.eq_dec g g0) as [ -> |Hn]; [rewrite setf_same; cb; auto|]. rewrite setf_other by auto. auto.
  - apply a10. intros X. apply H. now right.
  - cbn. lia.
Qed.

(** the semaphore of the generation has been taken *)
Lemma ok_take u c c' t k o u' tm g0 p0 n : stepped u c c' t k o u' -> k = KSem tm g0 p0 -> sem (ent (sh c) g0) = S n ->
  sh c' = set_ent g0 (MkE n (wtr (ent (sh c) g0)) (ntf (ent (sh c) g0)) (ep (ent (sh c) g0))) (sh c) -> u' = u -> o = OYield nat cres (KChk tm g0 p0) -> Inv u' c'.
Proof.
  intros [HI U St Kf] -> En Es -> ->. destruct Kf as (G1 & G2 & _). pose proof HI as [a1 a2 a3 a4 a5 a6 a7 a8 a9 a10 a11].
  assert (A : forall g, SW c' g = SW c g /\ SC c' g = SC c g + b2n (g =? g0) /\ SM c' g = SM c g /\ SP c' g = SP c g).
  { intros g. pose proof (UW U g); pose proof (UC U g); pose proof (UM U g); pose proof (UP U g). cbn in *. lia. }
  constructor; rewrite ?Es in *; cb; auto; intros.
  - destruct (A g) as (-> & _ & -> & _). rewrite <- a2 by auto. unfold setf. eqb; auto.
  - specialize (a3 g H). unfold setf. eqb; auto.
  - destruct (A g) as (-> & -> & _). assert (E : ep (ent (sh c) g) = cur (sh c)) by (unfold setf in H0; destruct (Nat.eqb_spec g g0) as [ -> |]; auto).
    destruct (a4 g H E) as (b1 & b2 & b3 & b4 & b5). unfold setf. destruct (Nat.eqb_spec g g0) as [ -> |]; cb; cbn [b2n]; repeat split; auto; lia.
  - destruct (A g) as (-> & -> & _). assert (E : ep (ent (sh c) g) < cur (sh c)) by (unfold setf in H0; destruct (Nat.eqb_spec g g0) as [ -> |]; auto).
    specialize (a5 g H E). unfold setf. destruct (Nat.eqb_spec g g0) as [ -> |]; cb; cbn [b2n]; lia.
  - destruct (A (cur (sh c))) as (_ & _ & _ & ->). auto.
  - destruct (A p) as (_ & _ & _ & ->). auto.
  - destruct (a9 g H). unfold setf. destruct (Nat.eqb_spec g g0) as [ -> |]; auto.
Qed.

(** the semaphore cannot be taken: the thread sleeps *)
Lemma ok_sleep u c c' t k o u' tm g0 p0 : stepped u c c' t k o u' -> k = KSem tm g0 p0 -> sh c' = sh c -> u' = u -> o = OSleep cres g0 k -> Inv u' c'.
Proof.
  intros [HI U St Kf] -> Es -> ->. pose proof HI as [a1 a2 a3 a4 a5 a6 a7 a8 a9 a10 a11].
  assert (A : forall g, SW c' g = SW c g /\ SC c' g = SC c g /\ SM c' g = SM c g /\ SP c' g = SP c g).
  { intros g. pose proof (UW U g); pose proof (UC U g); pose proof (UM U g); pose proof (UP U g). cbn in *. lia. }
  constructor; rewrite ?Es in *; auto; intros; try (destruct (A g) as (-> & -> & -> & _)); try (destruct (A g) as (-> & _ & -> & _)); auto.
  - destruct (A g) as (-> & -> & _). auto.
  - destruct (A g) as (-> & -> & _). auto.
  - destruct (A (cur (sh c))) as (_ & _ & _ & ->). auto.
  - destruct (A p) as (_ & _ & _ & ->). auto.
Qed.

(** a thread gives up waiting *)
Lemma ok_leave u c c' t k o u' tm g0 p0 r : stepped u c c' t k o u' -> k = KSem tm g0 p0 -> sh c' = sh c -> u' = u -> o = OYield nat cres (KRem g0 r) -> Inv u' c'.
Proof.
  intros [HI U St Kf] -> Es -> ->. pose proof HI as [a1 a2 a3 a4 a5 a6 a7 a8 a9 a10 a11].
  assert (A : forall g, SW c' g + b2n (g =? g0) = SW c g /\ SC c' g = SC c g /\ SM c' g = SM c g + b2n (g =? g0)).
  { intros g. pose proof (UW U g); pose proof (UC U g); pose proof (UM U g). cbn in *. lia. }
  assert (B : forall p, SP c' p + b2n (p =? p0) = SP c p) by (intros p; pose proof (UP U p); cbn in *; lia).
  constructor; rewrite ?Es in *; auto; intros.
  - destruct (A g) as (? & ? & ?). rewrite a2 by auto. lia.
  - destruct (A g) as (? & ? & ?). destruct (a4 g H H0) as (b1 & b2 & b3 & b4 & b5). repeat split; auto; lia.
  - destruct (A g) as (? & ? & ?). specialize (a5 g H H0). lia.
  - specialize (B (cur (sh c))). lia.
  - specialize (B p). specialize (a7 p H). lia.
Qed.

(** a thread whose wake_sem is empty goes back to the semaphore of its generation *)
Lemma ok_fail u c c' t k o u' tm g0 p0 : stepped u c c' t k o u' -> k = KChk tm g0 p0 -> wk (sh c) p0 = 0 -> In (Ready nat tt (OWait tm) k) (thr c) \/ 0 < SP c p0 -> sh c' = sh c -> u' = u -> o = OYield nat cres (KSem tm g0 p0) -> Inv u' c'.
Proof.
  intros [HI U St Kf] -> Ew Hin Es -> ->. destruct Kf as (G1 & G2 & _). pose proof HI as [a1 a2 a3 a4 a5 a6 a7 a8 a9 a10 a11].
  assert (A : forall g, SW c' g = SW c g /\ SC c' g + b2n (g =? g0) = SC c g /\ SM c' g = SM c g /\ SP c' g = SP c g).
  { intros g. pose proof (UW U g); pose proof (UC U g); pose proof (UM U g); pose proof (UP U g). cbn in *. lia. }
  assert (Hp0 : p0 = cur (sh c)).
  { assert (p0 <= cur (sh c)) by (rewrite <- G2; auto). destruct (Nat.eq_dec p0 (cur (sh c))); auto. assert (L : p0 < cur (sh c)) by lia. specialize (a7 _ L).
    pose proof (UP U p0) as X. cbn in X. rewrite b2n_refl in X. destruct (A p0) as (_ & _ & _ & X'). destruct Hin as [Hin|Hin]; [|lia].
    apply In_nth_error in Hin as [t0 Ht0]. pose proof (sumw_ge (wgt (kP p0)) Ht0) as Y. cbn in Y. rewrite b2n_refl in Y. unfold SP in a7. lia. }
  constructor; rewrite ?Es in *; auto; intros.
  - destruct (A g) as (-> & _ & -> & _). auto.
  - destruct (A g) as (-> & ? & _). destruct (a4 g H H0) as (b1 & b2 & b3 & b4 & b5). rewrite Hp0 in Ew. repeat split; auto. lia.
  - destruct (A g) as (-> & ? & _). specialize (a5 g H H0). destruct (Nat.eqb_spec g g0) as [ -> |]; cbn in *; lia.
  - destruct (A (cur (sh c))) as (_ & _ & _ & ->). auto.
  - destruct (A p) as (_ & _ & _ & ->). auto.
Qed.

(** a thread is woken *)
Definition uw (u : nat -> nat) (s : cv) (g0 p0 n : nat) : nat -> nat :=
  if p0 =? cur s then fun g => if g =? g0 then u g - 1 else Nat.min (u g) n else u.
Lemma ok_woken u c c' t k o u' tm g0 p0 n t0 : stepped u c c' t k o u' -> k = KChk tm g0 p0 -> wk (sh c) p0 = S n ->
  sh c' = MkC (tot (sh c)) (ne (sh c)) (ent (sh c)) (live (sh c)) (cur (sh c)) (setf (wk (sh c)) p0 n) (AWoke t0 :: log (sh c)) ->
  u' = uw u (sh c) g0 p0 n -> o = OYield nat cres (KRem g0 RWoken) -> Inv u' c'.
Proof.
  intros [HI U St Kf] -> Ew Es -> ->. destruct Kf as (G1 & G2 & _). pose proof HI as [a1 a2 a3 a4 a5 a6 a7 a8 a9 a10 a11].
  assert (A : forall g, SW c' g + b2n (g =? g0) = SW c g /\ SC c' g + b2n (g =? g0) = SC c g /\ SM c' g = SM c g + b2n (g =? g0)).
  { intros g. pose proof (UW U g); pose proof (UC U g); pose proof (UM U g). cbn in *. lia. }
  assert (B : forall p, SP c' p + b2n (p =? p0) = SP c p) by (intros p; pose proof (UP U p); cbn in *; lia).
  pose proof (fun g => @SW_SP _ c' g St) as WP. 
  constructor; rewrite ?Es in *; cb; auto; intros.
  - destruct (A g) as (? & ? & ?). rewrite a2 by auto. lia.
  - destruct (A g) as (A1 & A2 & _). destruct (a4 g H H0) as (b1 & b2 & b3 & b4 & b5). unfold uw, setf. specialize (B (cur (sh c))). specialize (WP g). rewrite H0 in WP.
    destruct (Nat.eqb_spec p0 (cur (sh c))) as [ -> |Hne].
    + rewrite Nat.eqb_refl in *. cbn in B. destruct (Nat.eqb_spec g g0) as [ -> |]; cbn in *; repeat split; auto; try lia; intros X; specialize (b4 X); lia.
    + destruct (Nat.eqb_spec (cur (sh c)) p0); [congruence|]. destruct (Nat.eqb_spec g g0) as [ -> |]; cbn in *; [congruence|]; repeat split; auto; lia.
  - destruct (A g) as (? & ? & ?). specialize (a5 g H H0). lia.
  - specialize (B (cur (sh c))). unfold setf. destruct (Nat.eqb_spec (cur (sh c)) p0) as [E|]; [rewrite <- E in Ew; rewrite ?Nat.eqb_refl in B; cbn [b2n] in B; lia|lia].
  - specialize (B p). specialize (a7 p H). unfold setf. destruct (Nat.eqb_spec p p0) as [E|]; [rewrite <- E in Ew; rewrite ?Nat.eqb_refl in B; cbn [b2n] in B; lia|lia].
  - unfold setf. destruct (Nat.eqb_spec p p0) as [E|]; [|auto]. rewrite <- E, a8 in Ew by auto. discriminate.
  - assert (X : ~ In AOne (log (sh c))) by (intros X; apply H; now right). specialize (a10 X). unfold setf. destruct (Nat.eqb_spec (cur (sh c)) p0) as [E|]; auto. rewrite <- E, a10 in Ew. discriminate.
Qed.

(** remove_waiter *)
Lemma ok_rem u c c' t k o u' g0 r : stepped u c c' t k o u' -> k = KRem g0 r -> sh c' = set_ent g0 (MkE (sem (ent (sh c) g0)) (wtr (ent (sh c) g0) - 1) (ntf (ent (sh c) g0)) (ep (ent (sh c) g0))) (sh c) ->
  u' = u -> o = ORet ck nat r -> Inv u' c'.
Proof.
  intros [HI U St Kf] -> Es -> ->. cbn in Kf. pose proof HI as [a1 a2 a3 a4 a5 a6 a7 a8 a9 a10 a11].
  assert (A : forall g, SW c' g = SW c g /\ SC c' g = SC c g /\ SM c' g + b2n (g =? g0) = SM c g /\ SP c' g = SP c g).
  { intros g. pose proof (UW U g); pose proof (UC U g); pose proof (UM U g); pose proof (UP U g). cbn in *. lia. }
  constructor; rewrite ?Es in *; cb; auto; intros.
  - destruct (A g) as (-> & _ & ? & _). specialize (a2 g H). unfold setf. destruct (Nat.eqb_spec g g0) as [ -> |]; cb; cbn in *; lia.
  - specialize (a3 g H). unfold setf. eqb; auto.
  - destruct (A g) as (-> & -> & _). assert (E : ep (ent (sh c) g) = cur (sh c)) by (unfold setf in H0; destruct (Nat.eqb_spec g g0) as [ -> |]; auto).
    destruct (a4 g H E) as (b1 & b2 & b3 & b4 & b5). unfold setf. destruct (Nat.eqb_spec g g0) as [ -> |]; cb; repeat split; auto. intros X. specialize (b5 X). lia.
  - destruct (A g) as (-> & -> & _). assert (E : ep (ent (sh c) g) < cur (sh c)) by (unfold setf in H0; destruct (Nat.eqb_spec g g0) as [ -> |]; auto).
    specialize (a5 g H E). unfold setf. destruct (Nat.eqb_spec g g0) as [ -> |]; auto.
  - destruct (A (cur (sh c))) as (_ & _ & _ & ->). auto.
  - destruct (A p) as (_ & _ & _ & ->). auto.
  - destruct (a9 g H). unfold setf. destruct (Nat.eqb_spec g g0) as [ -> |]; auto.
Qed.

(** notify_one *)
Definition un (u : nat -> nat) (s : cv) : nat -> nat := fun g => if inb g (live s) then S (u g) else u g.
Lemma ok_one u c c' t k o u' : stepped u c c' t k o u' -> k = KOne -> tot (sh c) <> 0 ->
  sh c' = MkC (tot (sh c) - 1) (ne (sh c)) (fun g => if inb g (live (sh c)) then release 1 (ent (sh c) g) else ent (sh c) g) (filter (fun g => negb (wtr (ent (sh c) g) =? 0)) (live (sh c)))
            (cur (sh c)) (setf (wk (sh c)) (cur (sh c)) (S (wk (sh c) (cur (sh c))))) (AOne :: log (sh c)) ->
  u' = un u (sh c) -> o = ORet ck nat ROk -> Inv u' c'.
Proof.
  intros [HI U St Kf] -> Et Es -> ->. pose proof HI as [a1 a2 a3 a4 a5 a6 a7 a8 a9 a10 a11].
  assert (A : forall g, SW c' g = SW c g /\ SC c' g = SC c g /\ SM c' g = SM c g /\ SP c' g = SP c g).
  { intros g. pose proof (UW U g); pose proof (UC U g); pose proof (UM U g); pose proof (UP U g). cbn in *. lia. }
  assert (Ee : forall g, ep (if inb g (live (sh c)) then release 1 (ent (sh c) g) else ent (sh c) g) = ep (ent (sh c) g)) by (intros g; destruct (inb g (live (sh c))); reflexivity).
  assert (Ewt : forall g, wtr (if inb g (live (sh c)) then release 1 (ent (sh c) g) else ent (sh c) g) = wtr (ent (sh c) g)) by (intros g; destruct (inb g (live (sh c))); reflexivity).
  constructor; rewrite ?Es in *; cb; auto; intros; rewrite ?Ee, ?Ewt in *; rewrite ?setf_same.
  - destruct (A g) as (-> & _ & -> & _). auto.
  - auto.
  - destruct (A g) as (-> & -> & _). destruct (a4 g H H0) as (b1 & b2 & b3 & b4 & b5). pose proof (a2 g H) as Wg. unfold un. destruct (inb g (live (sh c))) eqn:Ei; cb.
    + repeat split; auto; try lia; try discriminate. intros X. destruct (Nat.eq_dec (wtr (ent (sh c) g)) 0); auto. exfalso. apply X. apply filter_In. split; [now apply inb_In|]. destruct (Nat.eqb_spec (wtr (ent (sh c) g)) 0); [contradiction|reflexivity].
    + apply inb_nIn in Ei. specialize (b5 Ei). repeat split; auto; lia.
  - destruct (A g) as (-> & -> & _). specialize (a5 g H H0). destruct (inb g (live (sh c))); cb; lia.
  - destruct (A (cur (sh c))) as (_ & _ & _ & ->). lia.
  - destruct (A p) as (_ & _ & _ & ->). rewrite setf_other by lia. auto.
  - rewrite setf_other by lia. auto.
  - apply filter_In in H as [H _]. auto.
  - exfalso. apply H. now left.
  - cbn. lia.
Qed.

(** notify_all *)
Lemma ok_all u c c' t k o u' : stepped u c c' t k o u' -> k = KAll -> tot (sh c) <> 0 ->
  sh c' = MkC 0 (ne (sh c)) (fun g => if inb g (live (sh c)) then release (wtr (ent (sh c) g)) (ent (sh c) g) else ent (sh c) g) [] (S (cur (sh c)))
            (setf (wk (sh c)) (cur (sh c)) (wk (sh c) (cur (sh c)) + tot (sh c))) (AAll :: log (sh c)) ->
  u' = u -> o = ORet ck nat ROk -> Inv u' c'.
Proof.
  intros [HI U St Kf] -> Et Es -> ->. pose proof HI as [a1 a2 a3 a4 a5 a6 a7 a8 a9 a10 a11].
  assert (A : forall g, SW c' g = SW c g /\ SC c' g = SC c g /\ SM c' g = SM c g /\ SP c' g = SP c g).
  { intros g. pose proof (UW U g); pose proof (UC U g); pose proof (UM U g); pose proof (UP U g). cbn in *. lia. }
  assert (Ee : forall g, ep (if inb g (live (sh c)) then release (wtr (ent (sh c) g)) (ent (sh c) g) else ent (sh c) g) = ep (ent (sh c) g)) by (intros g; destruct (inb g (live (sh c))); reflexivity).
  assert (Ewt : forall g, wtr (if inb g (live (sh c)) then release (wtr (ent (sh c) g)) (ent (sh c) g) else ent (sh c) g) = wtr (ent (sh c) g)) by (intros g; destruct (inb g (live (sh c))); reflexivity).
  constructor; rewrite ?Es in *; cb; auto; intros; rewrite ?Ee, ?Ewt in *.
  - destruct (A g) as (-> & _ & -> & _). auto.
  - specialize (a3 g H). lia.
  - specialize (a3 g H). lia.
  - destruct (A g) as (-> & -> & _). pose proof (a2 g H) as Wg. destruct (Nat.eq_dec (ep (ent (sh c) g)) (cur (sh c))) as [E|E].
    + destruct (a4 g H E) as (b1 & b2 & b3 & b4 & b5). destruct (inb g (live (sh c))) eqn:Ei; cb; [lia|]. apply inb_nIn in Ei. specialize (b5 Ei). lia.
    + assert (L : ep (ent (sh c) g) < cur (sh c)) by (specialize (a3 g H); lia). specialize (a5 g H L). destruct (inb g (live (sh c))); cb; lia.
  - destruct (A (S (cur (sh c)))) as (_ & _ & _ & ->). assert (SP c (S (cur (sh c))) = 0); [|lia]. unfold SP. apply sumw_zero. intros x Hx. apply In_nth_error in Hx as [t0 Ht0]. specialize (a1 _ _ Ht0).
    assert (K : forall k, kfact u (sh c) t0 k -> kP (S (cur (sh c))) k = 0).
    { intros k Hk. destruct k; cbn in *; auto; destruct Hk as (K1 & K2 & _); specialize (a3 _ K1); destruct (Nat.eqb_spec (S (cur (sh c))) p); cbn; auto; lia. }
    destruct x as [l|l op k|l op cv k|l ns|]; cbn in *; auto; apply K; tauto.
  - destruct (A p) as (_ & _ & _ & ->). unfold setf. destruct (Nat.eqb_spec p (cur (sh c))) as [ -> |]; [lia|]. apply a7. lia.
  - rewrite setf_other by lia. apply a8. lia.
  - contradiction.
  - rewrite setf_other by lia. apply a8. lia.
Qed.

Lemma Inv_same u c c' : Inv u c -> sh c' = sh c -> (forall w, (w (KStart OOne) = 0 /\ w (KStart OAll) = 0 /\ (forall b, w (KStart (OWait b)) = 0)) -> sumw (wgt w) (thr c') = sumw (wgt w) (thr c)) ->
  (forall t x, nth_error (thr c') t = Some x -> stat u (sh c') t x) -> Inv u c'.
Proof.
  intros HI Es U St. assert (A : forall g, SW c' g = SW c g /\ SC c' g = SC c g /\ SM c' g = SM c g /\ SP c' g = SP c g) by (intros g; repeat split; apply U; cbn; auto).
  destruct HI as [a1 a2 a3 a4 a5 a6 a7 a8 a9 a10 a11]. constructor; rewrite ?Es in *; auto; intros.
  - destruct (A g) as (-> & _ & -> & _). auto.
  - destruct (A g) as (-> & -> & _ & _). auto.
  - destruct (A g) as (-> & -> & _ & _). auto.
  - destruct (A (cur (sh c))) as (_ & _ & _ & ->). auto.
  - destruct (A p) as (_ & _ & _ & ->). auto.
Qed.

Lemma kfact_leave u s t tm g p r : kfact u s t (KSem tm g p) -> kfact u s t (KRem g r).
Proof. cbn. unfold wfact. tauto. Qed.

Lemma Inv_init n : Inv (fun _ => 0) (init ck cop cres nat n cv0 tt).
Proof.
  assert (Z : forall w, sumw (wgt w) (thr (init ck cop cres nat n cv0 tt)) = 0) by (intros w; cbn; rewrite sumw_repeat, Nat.mul_0_r; reflexivity).
  constructor; cbn [sh init cv0 ne tot cur live log wk ent ep]; try (intros; lia); try contradiction; auto.
  - intros t x Hx. cbn in Hx. apply nth_error_In, repeat_spec in Hx as ->. exact I.
  - change (sumw (wgt (kP 0)) (thr (init ck cop cres nat n cv0 tt)) <= 0). rewrite (Z (kP 0)). lia.
Qed.

Lemma rev_last A (l : list A) x r : rev l = x :: r -> In x l.
Proof. intros E. apply in_rev. rewrite E. now left. Qed.
Lemma rev_nil A (l : list A) : rev l = [] -> l = [].
Proof. intros E. rewrite <- (rev_involutive l), E. reflexivity. Qed.

(** a step of a running thread *)
Lemma run_step u c t ps e l op k s' ns o thr' : Inv u c -> nth_error (thr c) t = Some (Ready nat l op k) -> cfrag t e k (sh c) = (s', ns, o) -> deliver_all P ns ps (thr c) = Some thr' ->
  exists u', Inv u' (MkCfg s' (upd thr' t (fst (after P t l op o (hist c)))) (snd (after P t l op o (hist c)))).
Proof.
  intros HI Ht Hf Hd. pose proof (i_st HI _ Ht) as Kf. cbn in Kf. pose proof HI as [a1 a2 a3 a4 a5 a6 a7 a8 a9 a10 a11].
  set (c' := MkCfg s' (upd thr' t (fst (after P t l op o (hist c)))) (snd (after P t l op o (hist c)))).
  assert (Ho : match o with OFin _ _ _ => False | _ => True end -> forall w, sumw (wgt w) (thr c') + w k = sumw (wgt w) (thr c) + wo w o) by (intros Ho; intros w; unfold c'; cbn [thr]; eapply step_sums; eauto).
  assert (Hstep : forall u', match o with OFin _ _ _ => False | _ => True end -> stat u' s' t (fst (after P t l op o (hist c))) -> (forall t' k', t' <> t -> at_k c t' k' -> kfact u (sh c) t' k' -> kfact u' s' t' k') ->
    (forall g, g < ne (sh c) -> sem (ent (sh c) g) = 0 -> sem (ent s' g) = 0 \/ In (NAll g) ns) -> stepped u c c' t k o u').
  { intros u' H1 H2 H3 H4. constructor; auto. unfold c'; cbn [thr sh]. eapply stat_step; eauto. }
  assert (New : forall L tm, k = KStart (OWait tm) -> s' = MkC (S (tot (sh c))) (S (ne (sh c))) (setf (ent (sh c)) (ne (sh c)) (MkE 0 1 false (cur (sh c)))) L (cur (sh c)) (wk (sh c)) (AReg t :: log (sh c)) -> ns = [] ->
     o = OYield nat cres (KSem tm (ne (sh c)) (cur (sh c))) -> (forall g, In g L <-> In g (live (sh c)) \/ g = ne (sh c)) -> exists u', Inv u' c').
  { intros L tm -> -> -> -> HL. exists (setf u (ne (sh c)) 0). eapply ok_new with (c := c) (k := KStart (OWait tm)); [|reflexivity|exact HL|reflexivity|cbn; auto|cbn; auto|reflexivity]. apply Hstep; auto.
    - cbn. unfold wfact. cb. rewrite !setf_same. cbn. rewrite Nat.eqb_refl. repeat split; auto; lia.
    - intros t' k' Hn Hat Hk. destruct k'; cbn in *; auto; try (lia; fail); destruct Hk as (K1 & K2 & K3); unfold wfact; cb; rewrite !setf_other by lia; (split; [lia|split; [auto|]]); intros X; specialize (K3 X); cbn;
        destruct (Nat.eqb_spec t t'); try congruence; destruct K3 as (K3 & K4 & K5); repeat split; auto; intros Y; apply K5; intros Z; apply Y; now right.
    - intros g Hg Hs. left. cb. rewrite setf_other by lia. auto. }
  destruct k as [[tm| | ]|tm g p|tm g p|g r| | ]; cbn in Hf.
  - (* wait *)
    unfold get_wait_entry in Hf. destruct (rev (live (sh c))) as [|g rs] eqn:Er.
    + injection Hf as <- <- <-. eapply New; [reflexivity..|]. intros g. apply rev_nil in Er. rewrite Er. cbn. intuition.
    + destruct (ntf (ent (sh c) g)) eqn:En.
      * injection Hf as <- <- <-. eapply New; [reflexivity..|]. intros g'. rewrite in_app_iff. cbn. intuition.
      * clear New. injection Hf as <- <- <-. assert (HL : In g (live (sh c))) by (eapply rev_last; eauto). destruct (a9 _ HL) as [G1 G2]. exists u.
        eapply ok_join with (c := c) (k := KStart (OWait tm)); [|reflexivity|exact HL|exact En|reflexivity|cbn; auto|cbn; auto|reflexivity]. apply Hstep; auto.
        -- cbn. unfold wfact. cb. rewrite !setf_same. cbn. rewrite Nat.eqb_refl. repeat split; auto; lia.
        -- intros t' k' Hn Hat Hk. destruct k'; cbn in *; auto; destruct Hk as (K1 & K2 & K3); unfold wfact; cb; (split; [auto|split; [unfold setf; destruct (Nat.eqb_spec g0 g) as [ -> |]; auto|]]); intros X; specialize (K3 X); cbn;
             destruct (Nat.eqb_spec t t'); try congruence; destruct K3 as (K3 & K4 & K5); repeat split; auto; intros Y; apply K5; intros Z; apply Y; now right.
        -- intros g' Hg Hs. left. cb. unfold setf. destruct (Nat.eqb_spec g' g) as [ -> |]; auto.
  - (* notify_one, first look *)
    destruct (Nat.eqb_spec (tot (sh c)) 0) as [Et|Et]; injection Hf as <- <- <-.
    + exists u. eapply ok_say with (c := c) (k := KStart OOne); [|left; reflexivity|exact Et|reflexivity|reflexivity|cbn; auto|cbn; auto|reflexivity]. apply Hstep; auto.
      * intros t' k' Hn Hat Hk. destruct k'; cbn in *; auto; destruct Hk as (K1 & K2 & K3); unfold wfact; cb; (split; [auto|split; [auto|]]); intros X; specialize (K3 X); cbn; rewrite <- a11, Et; cbn;
          destruct K3 as (K3 & K4 & K5); repeat split; auto; intros Y; apply K5; intros Z; apply Y; now right.
    + exists u. eapply ok_none with (c := c) (k := KStart OOne) (o := OYield nat cres KOne); [|reflexivity|reflexivity|cbn; auto|cbn; auto|intros w [ -> |[ -> |[ -> | -> ]]] g; reflexivity]. apply Hstep; auto.
  - (* notify_all, first look *)
    destruct (Nat.eqb_spec (tot (sh c)) 0) as [Et|Et]; injection Hf as <- <- <-.
    + exists u. eapply ok_say with (c := c) (k := KStart OAll); [|right; reflexivity|exact Et|reflexivity|reflexivity|cbn; auto|cbn; auto|reflexivity]. apply Hstep; auto.
      * intros t' k' Hn Hat Hk. pose proof (fun p => at_SP p Hat) as Hsp.
        destruct k'; cbn in *; auto; destruct Hk as (K1 & K2 & K3); unfold wfact; cb; (split; [auto|split; [auto|]]); intros X; specialize (K3 X); cbn; rewrite <- a11, Et; cbn;
          destruct K3 as (K3 & K4 & K5); repeat split; auto; intros Y; exfalso; specialize (Hsp p); rewrite b2n_refl in Hsp; rewrite X in Hsp;
          (assert (Z : ~ In AOne (log (sh c))) by (intros Z; apply Y; now right)); specialize (a10 Z); lia.
    + exists u. eapply ok_none with (c := c) (k := KStart OAll) (o := OYield nat cres KAll); [|reflexivity|reflexivity|cbn; auto|cbn; auto|intros w [ -> |[ -> |[ -> | -> ]]] g; reflexivity]. apply Hstep; auto.
  - (* the semaphore of the generation *)
    destruct (sem (ent (sh c) g)) as [|n] eqn:En; injection Hf as <- <- <-.
    + exists u. eapply ok_sleep with (c := c); [|reflexivity|reflexivity|reflexivity|reflexivity]. apply Hstep; auto. cbn. split; [exact Kf|]. split; [eauto|exact En].
    + exists u. destruct Kf as (G1 & G2 & G3). eapply ok_take with (c := c); [|reflexivity|exact En|reflexivity|reflexivity|reflexivity]. apply Hstep; auto.
      * cbn. unfold wfact. cb. rewrite setf_same. auto.
      * intros t' k' Hn Hat Hk. destruct k'; cbn in *; auto; destruct Hk as (K1 & K2 & K3); unfold wfact; cb; (split; [auto|split; [unfold setf; destruct (Nat.eqb_spec g0 g) as [ -> |]; auto|auto]]).
      * intros g' Hg Hs. left. cb. unfold setf. destruct (Nat.eqb_spec g' g) as [ -> |]; auto. congruence.
  - (* wake_sem *)
    destruct (wk (sh c) p) as [|n] eqn:En; injection Hf as <- <- <-.
    + exists u. eapply ok_fail with (c := c); [|reflexivity|exact En| |reflexivity|reflexivity|reflexivity].
      * apply Hstep; auto.
      * right. pose proof (sumw_ge (wgt (kP p)) Ht) as X. cbn in X. rewrite b2n_refl in X. unfold SP. lia.
    + exists (uw u (sh c) g p n). destruct Kf as (G1 & G2 & G3). eapply ok_woken with (c := c); [|reflexivity|exact En|reflexivity|reflexivity|reflexivity]. apply Hstep; [exact I|exact G1| |auto].
      intros t' k' Hn Hat Hk. destruct k'; cbn in *; auto; destruct Hk as (K1 & K2 & K3); unfold wfact; cb; (split; [auto|split; [auto|]]); intros X; specialize (K3 X); cbn;
        destruct K3 as (K3 & K4 & K5); (split; [|split; [auto|intros Y; apply K5; intros Z; apply Y; now right]]); rewrite X in K2; destruct (a4 _ K1 K2) as (_ & b2 & _); unfold uw;
        (destruct (Nat.eqb_spec p (cur (sh c))) as [E|]; [rewrite <- E, En in b2; destruct (Nat.eqb_spec g0 g) as [ -> |]; lia|lia]).
  - (* remove_waiter *)
    injection Hf as <- <- <-. exists u. eapply ok_rem with (c := c); [|reflexivity|reflexivity|reflexivity|reflexivity]. apply Hstep; [exact I|exact I| |].
    + intros t' k' Hn Hat Hk. destruct k'; cbn in *; auto; destruct Hk as (K1 & K2 & K3); unfold wfact; cb; (split; [auto|split; [unfold setf; destruct (Nat.eqb_spec g0 g) as [ -> |]; auto|auto]]).
    + intros g' Hg Hs. left. cb. unfold setf. destruct (Nat.eqb_spec g' g) as [ -> |]; auto.
  - (* notify_one *)
    destruct (Nat.eqb_spec (tot (sh c)) 0) as [Et|Et]; injection Hf as <- <- <-.
    + exists u. eapply ok_say with (c := c) (k := KOne); [|left; reflexivity|exact Et|reflexivity|reflexivity|cbn; auto|cbn; auto|reflexivity]. apply Hstep; auto.
      * intros t' k' Hn Hat Hk. destruct k'; cbn in *; auto; destruct Hk as (K1 & K2 & K3); unfold wfact; cb; (split; [auto|split; [auto|]]); intros X; specialize (K3 X); cbn; rewrite <- a11, Et; cbn;
          destruct K3 as (K3 & K4 & K5); repeat split; auto; intros Y; apply K5; intros Z; apply Y; now right.
    + exists (un u (sh c)). eapply ok_one with (c := c); [|reflexivity|exact Et|reflexivity|reflexivity|reflexivity]. apply Hstep; auto.
      * intros t' k' Hn Hat Hk.
        assert (Hlive : forall g p tm, k' = KSem tm g p \/ k' = KChk tm g p -> p = cur (sh c) -> inb g (live (sh c)) = true).
        { intros g p tm Hk' Hp. assert (Hw : kfact u (sh c) t' k' -> wfact u (sh c) t' g p) by (destruct Hk' as [ -> | -> ]; auto). specialize (Hw Hk). destruct Hw as (K1 & K2 & _).
          destruct (inb g (live (sh c))) eqn:Ei; auto. apply inb_nIn in Ei. rewrite Hp in K2. destruct (a4 g K1 K2) as (_ & _ & _ & _ & b5). specialize (b5 Ei). rewrite (a2 g K1) in b5.
          assert (1 <= SW c g); [|lia]. destruct Hat as (l0 & op0 & [X|(g1 & X)]); pose proof (sumw_ge (wgt (kW g)) X) as Y; cbn in Y; destruct Hk' as [ -> | -> ]; cbn in Y; rewrite b2n_refl in Y; exact Y. }
        destruct k'; cbn in *; auto; destruct Hk as (K1 & K2 & K3); unfold wfact; cb; (split; [auto|split; [destruct (inb g (live (sh c))); auto|]]); intros X; specialize (K3 X); cbn; rewrite <- a11;
          (destruct (Nat.eqb_spec (tot (sh c)) 0) as [|_]; [contradiction|]); unfold un; rewrite (Hlive g p timed) by auto;
          destruct K3 as (K3 & K4 & K5); repeat split; auto; try lia; intros Y; exfalso; apply Y; now left.
      * intros g' Hg Hs. cb. destruct (inb g' (live (sh c))) eqn:Ei; [right; apply in_map; now apply inb_In|left; auto].
  - (* notify_all *)
    destruct (Nat.eqb_spec (tot (sh c)) 0) as [Et|Et]; injection Hf as <- <- <-.
    + exists u. eapply ok_say with (c := c) (k := KAll); [|right; reflexivity|exact Et|reflexivity|reflexivity|cbn; auto|cbn; auto|reflexivity]. apply Hstep; auto.
      * intros t' k' Hn Hat Hk. pose proof (fun p => at_SP p Hat) as Hsp.
        destruct k'; cbn in *; auto; destruct Hk as (K1 & K2 & K3); unfold wfact; cb; (split; [auto|split; [auto|]]); intros X; specialize (K3 X); cbn; rewrite <- a11, Et; cbn;
          destruct K3 as (K3 & K4 & K5); repeat split; auto; intros Y; exfalso; specialize (Hsp p); rewrite b2n_refl in Hsp; rewrite X in Hsp;
          (assert (Z : ~ In AOne (log (sh c))) by (intros Z; apply Y; now right)); specialize (a10 Z); lia.
    + exists u. eapply ok_all with (c := c); [|reflexivity|exact Et|reflexivity|reflexivity|reflexivity]. apply Hstep; auto.
      * intros t' k' Hn Hat Hk. destruct k'; cbn in *; auto; destruct Hk as (K1 & K2 & K3); unfold wfact; cb; (split; [auto|split; [destruct (inb g (live (sh c))); auto|]]); intros X; specialize (a3 _ K1); lia.
      * intros g' Hg Hs. cb. destruct (inb g' (live (sh c))) eqn:Ei; [right; apply in_map; now apply inb_In|left; auto].
Qed.

Lemma Inv_step u c c' : Inv u c -> stepcase P c c' -> exists u', Inv u' c'.
Proof.
  intros HI Hs. destruct Hs as
   [t l op Ht Hp ->|t ps e l op k s' ns o thr' Ht Hfr Hd ->|t p l n ns thr' Ht Hd ->
   |t l op cv k Ht ->|t l op cv k k' Ht Hk ->|t l op cv k k' Ht Hk ->|t l op k k' Ht Hk ->].
  - exists u. apply (@Inv_same u c _ HI); [reflexivity| |].
    + intros w (W1 & W2 & W3). cbn [thr]. pose proof (sumw_upd (wgt w) (Ready nat l op (start P op)) Ht) as X. cbn [wgt] in X. change (start P op) with (KStart op) in *. assert (E0 : w (KStart op) = 0) by (destruct op; auto). rewrite E0, !Nat.add_0_r in X. exact X.
    + intros t' x Hx. cbn [thr sh] in *. apply nth_error_upd in Hx as [(-> & -> & _)|(_ & Hu)]; [exact I|exact (i_st HI _ Hu)].
  - eapply run_step; eauto.
  - destruct (i_st HI _ Ht).
  - exists u. pose proof (i_st HI _ Ht) as (K & _). apply (@Inv_same u c _ HI); [reflexivity| |].
    + intros w _. cbn [thr]. pose proof (sumw_upd (wgt w) (Ready nat l op k) Ht) as X. cbn [wgt] in X. lia.
    + intros t' x Hx. cbn [thr sh] in *. apply nth_error_upd in Hx as [(-> & -> & _)|(_ & Hu)]; [exact K|exact (i_st HI _ Hu)].
  - exists u. pose proof (i_st HI _ Ht) as (K & (tm & p & ->) & _). cbn in Hk. destruct tm; [|discriminate]. injection Hk as <-. eapply ok_leave with (c := c) (t := t); [|reflexivity|reflexivity|reflexivity|reflexivity].
    constructor; auto; cbn [thr sh].
    + intros w. exact (sumw_upd (wgt w) (Ready nat l op (KRem cv RTimeout)) Ht).
    + intros t' x Hx. apply nth_error_upd in Hx as [(-> & -> & _)|(_ & Hu)]; [exact (@kfact_leave _ _ _ _ _ _ RTimeout K)|exact (i_st HI _ Hu)].
    + exact K.
  - exists u. pose proof (i_st HI _ Ht) as (K & (tm & p & ->) & _). cbn in Hk. injection Hk as <-. eapply ok_leave with (c := c) (t := t); [|reflexivity|reflexivity|reflexivity|reflexivity].
    constructor; auto; cbn [thr sh].
    + intros w. exact (sumw_upd (wgt w) (Ready nat l op (KRem cv RInterrupted)) Ht).
    + intros t' x Hx. apply nth_error_upd in Hx as [(-> & -> & _)|(_ & Hu)]; [exact (@kfact_leave _ _ _ _ _ _ RInterrupted K)|exact (i_st HI _ Hu)].
    + exact K.
  - exists u. pose proof (i_st HI _ Ht) as K. change (kfact u (sh c) t k) in K. cbn in Hk. destruct k; try discriminate. cbn in Hk. injection Hk as <-. eapply ok_leave with (c := c) (t := t); [|reflexivity|reflexivity|reflexivity|reflexivity].
    constructor; auto; cbn [thr sh].
    + intros w. exact (sumw_upd (wgt w) (Ready nat l op (KRem g RInterrupted)) Ht).
    + intros t' x Hx. apply nth_error_upd in Hx as [(-> & -> & _)|(_ & Hu)]; [exact (@kfact_leave _ _ _ _ _ _ RInterrupted K)|exact (i_st HI _ Hu)].
    + exact K.
Qed.

Lemma reach_Inv n c : reachable P n cv0 tt c -> exists u, Inv u c.
Proof. apply (reachable_inv P (fun c => exists u, Inv u c)); [exists (fun _ => 0); apply Inv_init|]. intros c1 c2 [u H] Hs. exact (Inv_step H Hs). Qed.

(** at rest, everybody who waits sleeps *)
Lemma rest_C u c : Inv u c -> quiescent c -> forall g, SC c g = 0.
Proof.
  intros HI Hq g. apply sumw_zero. intros x Hx. apply In_nth_error in Hx as [t Ht]. pose proof (i_st HI _ Ht) as S. destruct (quiescent_settled Hq Ht) as [(l & ->)|(l & op & cv & k & ->)]; [reflexivity|].
  destruct S as (_ & (tm & p & ->) & _). reflexivity.
Qed.
Lemma wc_rest n c t : reachable P n cv0 tt c -> quiescent c -> wc_blocked c t ->
  owed t (log (sh c)) = 0 /\ all_since_served t (log (sh c)) = false /\ (~ In AOne (log (sh c)) -> all_since t (log (sh c)) = false).
Proof.
  intros Hr Hq (l & op & g & k & Ht). destruct (reach_Inv Hr) as [u HI]. pose proof (rest_C HI Hq g) as Hc. pose proof (i_st HI _ Ht) as (K & (tm & p & ->) & Hs). destruct K as (K1 & K2 & K3).
  assert (HW : 1 <= SW c g) by (pose proof (sumw_ge (wgt (kW g)) Ht) as X; cbn in X; rewrite b2n_refl in X; exact X).
  assert (E : p = cur (sh c)).
  { pose proof (i_e HI K1) as X. destruct (Nat.eq_dec (ep (ent (sh c) g)) (cur (sh c))); [congruence|]. assert (L : ep (ent (sh c) g) < cur (sh c)) by lia. pose proof (i_d HI K1 L). lia. }
  destruct (K3 E) as (K4 & K5 & K6). rewrite E in K2. destruct (i_c HI K1 K2) as (b1 & _). repeat split; auto. lia.
Qed.

(** ** No more wake-ups than notifications *)
Fixpoint sumf (f : nat -> nat) (n : nat) : nat := match n with 0 => 0 | S m => f m + sumf f m end.
Lemma sumf_setf f n p x : p < n -> sumf (setf f p x) n + f p = sumf f n + x.
Proof.
  induction n as [|n IH]; [lia|]. intros H. cbn. destruct (Nat.eq_dec p n) as [ -> |Hn].
  - rewrite setf_same. assert (E : forall m, m <= n -> sumf (setf f n x) m = sumf f m) by (induction m as [|m IHm]; auto; intros L; cbn; rewrite setf_other, IHm by lia; auto). rewrite E by auto. lia.
  - rewrite setf_other by auto. specialize (IH ltac:(lia)). lia.
Qed.
Definition Cnt (c : wcconf) : Prop := sumf (wk (sh c)) (S (cur (sh c))) + woken_waits (log (sh c)) = granted (log (sh c)).
Lemma Cnt_step u c c' : Inv u c -> Cnt c -> stepcase P c c' -> Cnt c'.
Proof.
  unfold Cnt. intros HI HC Hs. destruct Hs as
   [t l op Ht Hp ->|t ps e l op k s' ns o thr' Ht Hfr Hd ->|t p l n ns thr' Ht Hd ->
   |t l op cv k Ht ->|t l op cv k k' Ht Hk ->|t l op cv k k' Ht Hk ->|t l op k k' Ht Hk ->]; try exact HC. cbn [sh].
  pose proof (i_st HI _ Ht) as Kf. pose proof (i_t HI) as Et. pose proof (i_z HI) as Hz. cbn in Kf, Hfr. destruct k as [[tm| | ]|tm g p|tm g p|g r| | ]; cbn in Hfr.
  - unfold get_wait_entry in Hfr. destruct (rev (live (sh c))) as [|g rs]; [|destruct (ntf (ent (sh c) g))]; injection Hfr as <- <- <-; exact HC.
  - destruct (Nat.eqb_spec (tot (sh c)) 0); injection Hfr as <- <- <-; auto. cbn in *. rewrite <- Et, e0. exact HC.
  - destruct (Nat.eqb_spec (tot (sh c)) 0); injection Hfr as <- <- <-; auto. cbn in *. rewrite <- Et, e0. exact HC.
  - destruct (sem (ent (sh c) g)); injection Hfr as <- <- <-; auto.
  - destruct (wk (sh c) p) as [|n] eqn:En; injection Hfr as <- <- <-; auto. cbn [wk cur log woken_waits granted]. destruct Kf as (K1 & K2 & _). pose proof (i_e HI K1) as X. rewrite K2 in X.
    pose proof (@sumf_setf (wk (sh c)) (S (cur (sh c))) p n ltac:(lia)). lia.
  - injection Hfr as <- <- <-. exact HC.
  - destruct (Nat.eqb_spec (tot (sh c)) 0) as [E|E]; injection Hfr as <- <- <-; cbn [wk cur log woken_waits granted say]; rewrite <- Et.
    + rewrite E. exact HC.
    + destruct (Nat.eqb_spec (tot (sh c)) 0); [contradiction|]. pose proof (@sumf_setf (wk (sh c)) (S (cur (sh c))) (cur (sh c)) (S (wk (sh c) (cur (sh c)))) ltac:(lia)). lia.
  - destruct (Nat.eqb_spec (tot (sh c)) 0) as [E|E]; injection Hfr as <- <- <-; cbn [wk cur log woken_waits granted say]; rewrite <- Et.
    + rewrite E. exact HC.
    + pose proof (@sumf_setf (wk (sh c)) (S (cur (sh c))) (cur (sh c)) (wk (sh c) (cur (sh c)) + tot (sh c)) ltac:(lia)) as X.
      change (sumf (setf (wk (sh c)) (cur (sh c)) (wk (sh c) (cur (sh c)) + tot (sh c))) (S (S (cur (sh c))))) with
        (setf (wk (sh c)) (cur (sh c)) (wk (sh c) (cur (sh c)) + tot (sh c)) (S (cur (sh c))) + sumf (setf (wk (sh c)) (cur (sh c)) (wk (sh c) (cur (sh c)) + tot (sh c))) (S (cur (sh c)))).
      rewrite setf_other by lia. rewrite Hz by lia. lia.
Qed.
Lemma wc_woken n c : reachable P n cv0 tt c -> woken_waits (log (sh c)) <= granted (log (sh c)).
Proof.
  intros Hr. assert (X : (exists u, Inv u c) /\ Cnt c); [|destruct X as [_ X]; unfold Cnt in X; lia]. revert c Hr.
  apply (reachable_inv P (fun c => (exists u, Inv u c) /\ Cnt c)); [split; [exists (fun _ => 0); apply Inv_init|reflexivity]|].
  intros c1 c2 [[u H] HC] Hs. split; [exact (Inv_step H Hs)|exact (Cnt_step H HC Hs)].
Qed.
(** every return of a wait as woken is one of these *)
Definition kR (k : ck) : nat := match k with KRem _ RWoken => 1 | _ => 0 end.
Definition Ret (c : wcconf) : Prop := woken_returns (hist c) + sumw (wgt kR) (thr c) = woken_waits (log (sh c)).
Lemma Ret_step u c c' : Inv u c -> Ret c -> stepcase P c c' -> Ret c'.
Proof.
  unfold Ret. intros HI HC Hs. destruct Hs as
   [t l op Ht Hp ->|t ps e l op k s' ns o thr' Ht Hfr Hd ->|t p l n ns thr' Ht Hd ->
   |t l op cv k Ht ->|t l op cv k k' Ht Hk ->|t l op cv k k' Ht Hk ->|t l op k k' Ht Hk ->]; cbn [sh thr hist].
  - pose proof (sumw_upd (wgt kR) (Ready nat l op (start P op)) Ht) as X. cbn [wgt start wcprog kR] in X. cbn [woken_returns start wcprog] in *. lia.
  - cbn in Hfr. assert (Ho : match o with OFin _ _ _ => False | _ => True end).
    { destruct k as [[tm| | ]|tm g p|tm g p|g r| | ]; cbn in Hfr; unfold get_wait_entry in Hfr;
      repeat match type of Hfr with context [match ?x with _ => _ end] => destruct x end; injection Hfr as <- <- <-; exact I. }
    pose proof (@step_sums c t l op k ps ns thr' o (hist c) Ht Hd Ho kR) as X.
    destruct k as [[tm| | ]|tm g p|tm g p|g r| | ]; cbn in Hfr; unfold get_wait_entry in Hfr;
      repeat match type of Hfr with context [match ?x with _ => _ end] => destruct x end; injection Hfr as <- <- <-; cbn [wo kR after fst snd log woken_waits woken_returns hist say set_ent] in *; try lia.
    destruct r; cbn in *; lia.
  - destruct (i_st HI _ Ht).
  - pose proof (sumw_upd (wgt kR) (Ready nat l op k) Ht) as X. cbn [wgt] in X. lia.
  - pose proof (sumw_upd (wgt kR) (Ready nat l op k') Ht) as X. cbn [wgt] in X. cbn in Hk. destruct k as [ | [ | ] | | | | ]; try discriminate. injection Hk as <-. cbn [kR] in X. lia.
  - pose proof (sumw_upd (wgt kR) (Ready nat l op k') Ht) as X. cbn [wgt] in X. cbn in Hk. destruct k; try discriminate. injection Hk as <-. cbn [kR] in X. lia.
  - pose proof (sumw_upd (wgt kR) (Ready nat l op k') Ht) as X. cbn [wgt] in X. cbn in Hk. destruct k; try discriminate. injection Hk as <-. cbn [kR] in X. lia.
Qed.
Lemma wc_returns n c : reachable P n cv0 tt c -> woken_returns (hist c) <= granted (log (sh c)).
Proof.
  intros Hr. pose proof (wc_woken Hr) as W. assert (X : (exists u, Inv u c) /\ Ret c); [|destruct X as [_ X]; unfold Ret in X; lia]. revert c Hr W. intros c Hr _. revert c Hr.
  apply (reachable_inv P (fun c => (exists u, Inv u c) /\ Ret c)); [split; [exists (fun _ => 0); apply Inv_init|unfold Ret; cbn; rewrite sumw_repeat, Nat.mul_0_r; reflexivity]|].
  intros c1 c2 [[u H] HC] Hs. split; [exact (Inv_step H Hs)|exact (Ret_step H HC Hs)].
Qed.
