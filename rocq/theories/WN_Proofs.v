(** * Proofs about when_all and when_any *)
From Verif Require Export WN_Spec.
Import ListNotations.
Set Implicit Arguments.

Lemma fset_same g i x : fset g i x i = x.
Proof. unfold fset. now rewrite Nat.eqb_refl. Qed.
Lemma fset_other g i x j : j <> i -> fset g i x j = g j.
Proof. intros H. unfold fset. now apply Nat.eqb_neq in H as ->. Qed.

(** how a future can change *)
Inductive adv : fut -> fut -> Prop :=
| adv_refl f : adv f f
| adv_take o w : adv (Deferred o) (Busy w o)
| adv_fin o w : adv (Busy w o) (Ready o)
| adv_set o : adv Pending (Ready o).

Definition forward (c c' : wn) : Prop := (forall i, adv (fu c i) (fu c' i)) /\ incl (hist c) (hist c').

Lemma forward_ready c c' i : forward c c' -> ready (fu c i) -> ready (fu c' i).
Proof. intros [H _] [o E]. specialize (H i). rewrite E in H. inversion H; subst; now exists o. Qed.
Lemma forward_ndef c c' i : forward c c' -> ~ deferred (fu c i) -> ~ deferred (fu c' i).
Proof.
  intros [H _] N [o E]. specialize (H i). rewrite E in H. inversion H as [f E1 E2| | |]; subst.
  apply N. exists o. congruence.
Qed.
Lemma forward_passed f0 c c' i : forward c c' -> passed_over f0 c i -> passed_over f0 c' i.
Proof. intros [_ H] [A B]. split; auto. intros D. unfold by_other in *. auto. Qed.

Lemma forward_same c cp wp o h : incl (hist c) h -> forward c (MkWn (fu c) cp wp o h).
Proof. intros H. split; [intros i; constructor|exact H]. Qed.
Lemma forward_fset c i x cp wp o h : adv (fu c i) x -> incl (hist c) h -> forward c (MkWn (fset (fu c) i x) cp wp o h).
Proof.
  intros A H. split; [|exact H]. intros j. cbn. destruct (Nat.eq_dec j i) as [->|Hn]; [now rewrite fset_same|rewrite fset_other by auto; constructor].
Qed.
Lemma Forall_fw (P : wn -> nat -> Prop) c c' l : (forall i, P c i -> P c' i) -> Forall (P c) l -> Forall (P c') l.
Proof. intros H. apply Forall_impl. exact H. Qed.

Section Inv.
Variables (kd : kind) (fm : form) (waits : bool) (inp : list nat) (f0 : nat -> fut).

Notation rdy c := (fun i => ready (fu c i)).
Notation ndef c := (fun i => ~ deferred (fu c i)).

(** the state of each future, and who executes it *)
Record futs (c : wn) : Prop := MkF {
  f_rdy : forall i, ready (f0 i) -> fu c i = f0 i;
  f_def : forall i o, fu c i = Deferred o -> f0 i = Deferred o;
  f_pend : forall i, fu c i = Pending -> f0 i = Pending;
  f_exec : forall i, execs i (hist c) = match f0 i, fu c i with Deferred _, Deferred _ => 0 | Deferred _, _ => 1 | _, _ => 0 end;
  f_by : forall i, deferred (f0 i) -> ~ deferred (fu c i) -> exists w, In (EExec w i) (hist c);
  f_now : forall i, wpc c = WNone -> ~ In (EExec ByWork i) (hist c);
  f_busy : forall i w o, deferred (f0 i) -> fu c i = Busy w o -> In (EExec w i) (hist c);
  f_call : forall i o, fu c i = Busy ByCall o -> exists todo r, cpc c = CExec i todo r;
  f_work : forall i o, fu c i = Busy ByWork o -> exists todo, wpc c = WRun (LAllExec i todo) }.

Definition any_fact (c : wn) : Prop := kd = KAny ->
  by_call (hist c) = [] \/
  exists dn i todo, scan_order fm inp = dn ++ i :: todo /\ by_call (hist c) = [i] /\ Forall (passed_over f0 c) dn.

(** the futures that run_deferred has gone past *)
Definition past (c : wn) (dn : list nat) (r : bool) : Prop :=
  Forall (ndef c) dn /\
  match kd with
  | KAll => (r = false -> Forall (rdy c) dn) /\ (fm = Tup -> r = false) /\ incl (by_call (hist c)) dn
  | KAny => r = false /\ by_call (hist c) = [] /\ Forall (passed_over f0 c) dn
  end.
(** what holds when the call gives up the wait to a thread *)
Definition spawned (c : wn) : Prop :=
  match kd, fm with
  | KAll, Vec => Forall (ndef c) inp
  | KAll, Tup => exists dn i todo, scan_order fm inp = dn ++ i :: todo /\ Forall (rdy c) dn /\ (~ deferred (f0 i) \/ by_other i c \/ In i dn)
  | KAny, _ => Forall (ndef c) inp /\ Forall (passed_over f0 c) inp
  end.
Definition finished (c : wn) : Prop :=
  match kd with KAll => Forall (rdy c) inp | KAny => inp = [] \/ Exists (rdy c) inp end.
Definition loop_ok (c : wn) (w : wloop) : Prop :=
  match kd, w with
  | KAll, LAll todo => exists dn, inp = dn ++ todo /\ Forall (rdy c) dn
  | KAll, LAllExec i todo => (exists o, fu c i = Busy ByWork o) /\ exists dn, inp = dn ++ i :: todo /\ Forall (rdy c) dn
  | KAny, LAny => inp <> []
  | _, _ => False
  end.

Definition ctl (c : wn) : Prop :=
  match cpc c with
  | CStart => wpc c = WNone /\ out c = None /\ by_call (hist c) = []
  | CScan todo r => wpc c = WNone /\ out c = None /\ inp <> [] /\ exists dn, scan_order fm inp = dn ++ todo /\ past c dn r
  | CExec i todo r =>
      wpc c = WNone /\ out c = None /\ inp <> [] /\ (exists o, fu c i = Busy ByCall o) /\
      exists dn, scan_order fm inp = dn ++ i :: todo /\ Forall (ndef c) dn /\
      match kd with
      | KAll => (r = false -> Forall (rdy c) dn) /\ (fm = Tup -> r = false) /\ incl (by_call (hist c)) (i :: dn)
      | KAny => r = false
      end
  | CSpawn => wpc c = WNone /\ out c = None /\ inp <> [] /\ spawned c
  | CInl w => wpc c = WNone /\ out c = None /\ inp <> [] /\
      match kd with
      | KAll => (exists todo dn, w = LAll todo /\ inp = dn ++ todo) /\ Forall (rdy c) inp
      | KAny => w = LAny /\ Exists (rdy c) inp
      end
  | CRet =>
      match wpc c with
      | WNone => out c = Some inp /\ finished c
      | WRun w => out c = None /\ spawned c /\ loop_ok c w
      | WEnd => out c = Some inp /\ finished c /\ spawned c
      end
  | CDtor | CThrow => wpc c = WNone /\ out c = None
  end.

Record Inv (c : wn) : Prop := MkInv { i_f : futs c; i_a : any_fact c; i_c : ctl c }.

Lemma in_order i : In i (scan_order fm inp) <-> In i inp.
Proof. unfold scan_order. destruct fm; [tauto|]. symmetry. apply in_rev. Qed.

Lemma Forall_order (P : nat -> Prop) : Forall P (scan_order fm inp) <-> Forall P inp.
Proof. rewrite !Forall_forall. split; intros H i Hi; apply H; now apply in_order. Qed.

(** ** stability *)
Section Stable.
Variables c c' : wn.
Hypothesis Hfw : forward c c'.

Lemma st_ndef l : Forall (ndef c) l -> Forall (ndef c') l.
Proof. apply Forall_impl. intros i. now apply forward_ndef. Qed.
Lemma st_rdy l : Forall (rdy c) l -> Forall (rdy c') l.
Proof. apply Forall_impl. intros i. now apply forward_ready. Qed.
Lemma st_exr l : Exists (rdy c) l -> Exists (rdy c') l.
Proof. apply Exists_impl. intros i. now apply forward_ready. Qed.
Lemma st_po l : Forall (passed_over f0 c) l -> Forall (passed_over f0 c') l.
Proof. apply Forall_impl. intros i. now apply forward_passed. Qed.
Lemma st_fin : finished c -> finished c'.
Proof. unfold finished. destruct kd; [apply st_rdy|intros [H|H]; auto using st_exr]. Qed.
Lemma st_spawned : spawned c -> spawned c'.
Proof.
  unfold spawned. destruct kd.
  - destruct fm; [apply st_ndef|].
    intros (dn & i & todo & H1 & H2 & H3). exists dn, i, todo. split; [exact H1|]. split; [now apply st_rdy|].
    destruct H3 as [H3|[H3|H3]]; [auto| |auto]. right; left. destruct Hfw as [_ Hi]. unfold by_other in *. auto.
  - intros [A B]. split; [now apply st_ndef|now apply st_po].
Qed.
Lemma st_any : by_call (hist c') = by_call (hist c) -> any_fact c -> any_fact c'.
Proof.
  intros E H K. rewrite E. destruct (H K) as [H1|(dn & i & todo & H1 & H2 & H3)]; [auto|].
  right. exists dn, i, todo. split; [auto|]. split; [auto|now apply st_po].
Qed.
End Stable.

(** steps of other threads *)
Lemma env_step c i x h :
  adv (fu c i) x -> (forall o, fu c i <> Busy ByCall o) -> (forall o, fu c i <> Busy ByWork o) ->
  incl (hist c) h -> by_call h = by_call (hist c) ->
  Inv c -> futs (MkWn (fset (fu c) i x) (cpc c) (wpc c) (out c) h) ->
  Inv (MkWn (fset (fu c) i x) (cpc c) (wpc c) (out c) h).
Proof.
  intros Ha N1 N2 Hi Hb [HF HA HC] HF'.
  pose proof (@forward_fset c i x (cpc c) (wpc c) (out c) h Ha Hi) as Hfw.
  split; [exact HF'|now apply (st_any Hfw)|].
  assert (Hbusy : forall w j, w <> ByOther -> (exists o, fu c j = Busy w o) -> exists o, fset (fu c) i x j = Busy w o).
  { intros w j Hw [o E]. exists o. rewrite fset_other; [exact E|]. intros ->. destruct w; [now apply (N1 o)|now apply (N2 o)|easy]. }
  unfold ctl in *. cbn [cpc wpc out hist fu] in *. destruct (cpc c) as [|todo r|j todo r| |w| | |].
  - rewrite Hb. exact HC.
  - destruct HC as (H1 & H2 & H3 & dn & H4 & H5). repeat split; auto. exists dn. split; auto.
    unfold past in *. cbn [hist]. rewrite Hb. destruct H5 as [H5 H6]. split; [now apply (st_ndef Hfw)|].
    destruct kd; [destruct H6 as [H6 H7]; rewrite ?Hb; split; auto; intros E; apply (st_rdy Hfw); auto|].
    destruct H6 as (H6 & H7 & H8). repeat split; auto. now apply (st_po Hfw).
  - destruct HC as (H1 & H2 & H3 & H4 & dn & H5 & H6 & H7). repeat split; auto.
    { apply Hbusy; [discriminate|auto]. }
    exists dn. split; auto. split; [now apply (st_ndef Hfw)|].
    destruct kd; [destruct H7 as [H7 H8]; rewrite ?Hb; split; auto; intros E; apply (st_rdy Hfw); auto|auto].
  - destruct HC as (H1 & H2 & H3 & H4). repeat split; auto. now apply (st_spawned Hfw).
  - destruct HC as (H1 & H2 & H3 & H4). repeat split; auto.
    destruct kd; [destruct H4 as [H4 H5]; split; auto; now apply (st_rdy Hfw)|].
    destruct H4 as [H4 H5]. split; auto. now apply (st_exr Hfw).
  - destruct (wpc c) as [|w|].
    + destruct HC as [H1 H2]. split; auto. now apply (st_fin Hfw).
    + destruct HC as (H1 & H2 & H3). split; auto. split; [now apply (st_spawned Hfw)|].
      unfold loop_ok in *. destruct kd, w; auto.
      * destruct H3 as (dn & H3 & H4). exists dn. split; auto. now apply (st_rdy Hfw).
      * destruct H3 as (H3 & dn & H4 & H5). split; [apply Hbusy; [discriminate|auto]|]. exists dn. split; auto. now apply (st_rdy Hfw).
    + destruct HC as (H1 & H2 & H3). split; auto. split; [now apply (st_fin Hfw)|now apply (st_spawned Hfw)].
  - exact HC.
  - exact HC.
Qed.

(** ** the state of the futures *)
Lemma futs_take c i o w cp wp ou :
  futs c -> fu c i = Deferred o ->
  (forall j o', fu c j <> Busy ByCall o') \/ (cp = cpc c) ->
  (forall j o', fu c j <> Busy ByWork o') \/ (wp = wpc c) ->
  (w = ByCall -> exists todo r, cp = CExec i todo r) ->
  (w = ByWork -> exists todo, wp = WRun (LAllExec i todo)) ->
  (wp = WNone -> wpc c = WNone) ->
  futs (MkWn (fset (fu c) i (Busy w o)) cp wp ou (EExec w i :: hist c)).
Proof.
  intros HF E Hc Hw Wc Ww Wn. destruct HF as [h1 h2 h3 h4 g1 g2 h5 h6 h7].
  pose proof (h2 _ _ E) as E0.
  split; cbn [fu cpc wpc hist]; intros j.
  - intros [o' R]. rewrite fset_other; [apply h1; now exists o'|]. intros ->. congruence.
  - intros o'. destruct (Nat.eq_dec j i) as [->|Hn]; [rewrite fset_same; discriminate|rewrite fset_other by auto; apply h2].
  - destruct (Nat.eq_dec j i) as [->|Hn]; [rewrite fset_same; discriminate|rewrite fset_other by auto; apply h3].
  - cbn [execs]. destruct (Nat.eq_dec j i) as [->|Hn].
    + rewrite fset_same, Nat.eqb_refl, h4, E0, E. reflexivity.
    + rewrite fset_other by auto. assert (i =? j = false) as -> by (apply Nat.eqb_neq; auto). apply h4.
  - intros D. destruct (Nat.eq_dec j i) as [->|Hn].
    + intros _. exists w. now left.
    + rewrite fset_other by auto. intros N. destruct (g1 _ D N) as [w' H]. exists w'. now right.
  - intros W [H|H].
    + injection H as -> ->. destruct (Ww eq_refl) as [td X]. congruence.
    + eapply g2; eauto.
  - intros w' o' D. destruct (Nat.eq_dec j i) as [->|Hn].
    + rewrite fset_same. intros [= <- <-]. now left.
    + rewrite fset_other by auto. intros B. right. eauto.
  - intros o'. destruct (Nat.eq_dec j i) as [->|Hn].
    + rewrite fset_same. intros [= -> _]. auto.
    + rewrite fset_other by auto. intros B. destruct Hc as [Hc|Hc]; [exfalso; eapply Hc; eauto|]. rewrite Hc. eauto.
  - intros o'. destruct (Nat.eq_dec j i) as [->|Hn].
    + rewrite fset_same. intros [= -> _]. auto.
    + rewrite fset_other by auto. intros B. destruct Hw as [Hw|Hw]; [exfalso; eapply Hw; eauto|]. rewrite Hw. eauto.
Qed.

Lemma futs_ready c i o cp wp ou :
  futs c -> ~ deferred (fu c i) -> ~ ready (fu c i) ->
  (forall j o', j <> i -> fu c j <> Busy ByCall o') \/ (cp = cpc c) ->
  (forall j o', j <> i -> fu c j <> Busy ByWork o') \/ (wp = wpc c) ->
  (wp = WNone -> wpc c = WNone) ->
  futs (MkWn (fset (fu c) i (Ready o)) cp wp ou (hist c)).
Proof.
  intros HF Nd Nr Hc Hw Wn. destruct HF as [h1 h2 h3 h4 g1 g2 h5 h6 h7].
  split; cbn [fu cpc wpc hist]; intros j.
  - intros R. rewrite fset_other; [now apply h1|]. intros ->. apply Nr. rewrite (h1 _ R). exact R.
  - intros o'. destruct (Nat.eq_dec j i) as [->|Hn]; [rewrite fset_same; discriminate|rewrite fset_other by auto; apply h2].
  - destruct (Nat.eq_dec j i) as [->|Hn]; [rewrite fset_same; discriminate|rewrite fset_other by auto; apply h3].
  - destruct (Nat.eq_dec j i) as [->|Hn].
    + rewrite fset_same, h4. destruct (f0 i); auto. destruct (fu c i) as [o'| | |]; auto. exfalso. apply Nd. now exists o'.
    + rewrite fset_other by auto. apply h4.
  - intros D. destruct (Nat.eq_dec j i) as [->|Hn]; [auto|]. rewrite fset_other by auto. auto.
  - auto.
  - intros w' o' D. destruct (Nat.eq_dec j i) as [->|Hn]; [rewrite fset_same; discriminate|].
    rewrite fset_other by auto. eauto.
  - intros o'. destruct (Nat.eq_dec j i) as [->|Hn]; [rewrite fset_same; discriminate|].
    rewrite fset_other by auto. intros B. destruct Hc as [Hc|Hc]; [exfalso; eapply Hc; eauto|]. rewrite Hc. eauto.
  - intros o'. destruct (Nat.eq_dec j i) as [->|Hn]; [rewrite fset_same; discriminate|].
    rewrite fset_other by auto. intros B. destruct Hw as [Hw|Hw]; [exfalso; eapply Hw; eauto|]. rewrite Hw. eauto.
Qed.

Lemma futs_same c cp wp ou :
  futs c -> (forall j o', fu c j <> Busy ByCall o') \/ cp = cpc c -> (forall j o', fu c j <> Busy ByWork o') \/ wp = wpc c ->
  (wp = WNone -> wpc c = WNone) ->
  futs (MkWn (fu c) cp wp ou (hist c)).
Proof.
  intros [h1 h2 h3 h4 g1 g2 h5 h6 h7] Hc Hw Wn. split; cbn [fu cpc wpc hist]; auto.
  - intros i o' B. destruct Hc as [Hc|Hc]; [exfalso; eapply Hc; eauto|rewrite Hc; eauto].
  - intros i o' B. destruct Hw as [Hw|Hw]; [exfalso; eapply Hw; eauto|rewrite Hw; eauto].
Qed.

Lemma no_call c : futs c -> (forall i todo r, cpc c <> CExec i todo r) -> forall j o', fu c j <> Busy ByCall o'.
Proof. intros HF N j o' B. destruct (f_call HF _ B) as (todo & r & E). eapply N; eauto. Qed.
Lemma no_work c : futs c -> (forall i todo, wpc c <> WRun (LAllExec i todo)) -> forall j o', fu c j <> Busy ByWork o'.
Proof. intros HF N j o' B. destruct (f_work HF _ B) as (todo & E). eapply N; eauto. Qed.

(** ** the steps of the call *)
Lemma not_def f : (forall o, f <> Deferred o) -> ~ deferred f.
Proof. intros H [o E]. eapply H; eauto. Qed.

Lemma any_ext c c' : fu c = fu c' -> hist c = hist c' -> any_fact c -> any_fact c'.
Proof. intros E1 E2 H. unfold any_fact, passed_over, by_other in *. rewrite <- E2. exact H. Qed.

Lemma spawned_ext c c' : fu c = fu c' -> hist c = hist c' -> spawned c -> spawned c'.
Proof. intros E1 E2 H. unfold spawned, passed_over, by_other in *. rewrite <- E1, <- E2. exact H. Qed.

(** a deferred function was not deferred for the call although it was when the call began: another thread executes it *)
Lemma gone c i : futs c -> (forall o, fu c i <> Deferred o) -> (forall o, fu c i <> Ready o) -> (forall o, fu c i <> Busy ByCall o) ->
  (forall o, fu c i <> Busy ByWork o) -> ~ deferred (f0 i) \/ by_other i c.
Proof.
  intros HF N1 N2 N3 N4. destruct (f0 i) as [o|w o| |o] eqn:E0; try (left; apply not_def; discriminate).
  right. destruct (fu c i) as [o'|w' o'| |o'] eqn:E.
  - now exfalso; apply (N1 o').
  - unfold by_other. destruct w'; [now exfalso; apply (N3 o')|now exfalso; apply (N4 o')|]. eapply (f_busy HF); eauto. now exists o.
  - pose proof (f_pend HF _ E). congruence.
  - now exfalso; apply (N2 o').
Qed.

Lemma adv_self c i o : futs c -> ready (f0 i) -> fu c i = Ready o -> f0 i = Ready o.
Proof. intros HF R E. rewrite <- E. symmetry. now apply (f_rdy HF). Qed.

Lemma scanned_ctl c r cp dn :
  futs c -> wpc c = WNone -> out c = None -> inp <> [] -> scan_order fm inp = dn -> past c dn r -> cp = scanned kd inp r ->
  (forall j o', fu c j <> Busy ByCall o') ->
  ctl (MkWn (fu c) cp (wpc c) (out c) (hist c)).
Proof.
  intros HF Hw Ho Hne Eo Hp -> Nc. unfold past in Hp. destruct Hp as [Hd Hk].
  assert (Hd' : Forall (ndef c) inp) by (apply Forall_order; rewrite Eo; exact Hd).
  unfold scanned, ctl, run_start, spawned. destruct kd; destruct r; cbn [cpc wpc out hist fu].
  - repeat split; auto. destruct fm; [exact Hd'|]. destruct Hk as (_ & Hk & _). specialize (Hk eq_refl). discriminate.
  - destruct Hk as [Hk _]. repeat split; auto; [exists inp, []; auto|]. apply Forall_order. rewrite Eo. auto.
  - destruct Hk; discriminate.
  - destruct Hk as (_ & _ & Hk). repeat split; auto. apply Forall_order. rewrite Eo. exact Hk.
Qed.

Lemma order_ne : inp <> [] -> scan_order fm inp <> [].
Proof.
  intros H E. apply H. unfold scan_order in E. destruct fm; [exact E|]. rewrite <- (rev_involutive inp), E. reflexivity.
Qed.

Lemma by_call_in i h : In (EExec ByCall i) h -> In i (by_call h).
Proof.
  induction h as [|[w j] h IH]; [easy|]. intros [H|H]; [injection H as -> ->; now left|].
  cbn. destruct w; [right|..]; auto.
Qed.

Lemma Inv_call c c' : call_step kd fm waits inp c = Some c' -> Inv c -> Inv c'.
Proof.
  intros Hs [HF HA HC]. unfold call_step in Hs.
  destruct (cpc c) as [|todo r|i todo r| |w| | |] eqn:Ec; try discriminate.
  - (* CStart *)
    unfold ctl in HC. rewrite Ec in HC. destruct HC as (H1 & H2 & H3).
    assert (Nc : forall j o', fu c j <> Busy ByCall o') by (apply no_call; [auto|rewrite Ec; discriminate]).
    destruct (list_eq_dec Nat.eq_dec inp []) as [Ei|Ei].
    + rewrite Ei in Hs. injection Hs as <-. 
      split; [apply futs_same; auto|now apply (@any_ext c)|]. unfold ctl. cbn [cpc wpc out]. rewrite H1, Ei. split; auto. unfold finished. rewrite Ei. destruct kd; auto.
    + assert (Hs' : Some (MkWn (fu c) (CScan (scan_order fm inp) false) (wpc c) (out c) (hist c)) = Some c') by (destruct inp; [easy|exact Hs]).
      injection Hs' as <-.
      split; [apply futs_same; auto|now apply (@any_ext c)|]. unfold ctl. cbn [cpc wpc out]. repeat split; auto.
      exists []. split; auto. unfold past. split; auto. cbn [hist]. rewrite H3. destruct kd; repeat split; auto; intros x [].
  - unfold ctl in HC. rewrite Ec in HC. destruct HC as (H1 & H2 & H3 & dn & H4 & H5).
    assert (Nc : forall j o', fu c j <> Busy ByCall o') by (apply no_call; [auto|rewrite Ec; discriminate]).
    assert (Nw : forall j o', fu c j <> Busy ByWork o') by (apply no_work; [auto|rewrite H1; discriminate]).
    destruct todo as [|i todo].
    + (* the end of the scan *)
      injection Hs as <-. rewrite app_nil_r in H4.
      split; [apply futs_same; auto|now apply (@any_ext c)|]. eapply scanned_ctl; eauto.
    + destruct H5 as [H5 H6].
      assert (Hno : (forall o, fu c i <> Deferred o) ->
        forall b c'', c'' = MkWn (fu c) (scan_next kd fm inp b todo r) (wpc c) (out c) (hist c) ->
        (kd = KAll -> b = false) -> (kd = KAny -> b = true -> ready (fu c i)) -> (kd = KAny -> b = false -> ~ ready (fu c i)) -> Inv c'').
      { intros Nd b c'' -> Hb1 Hb2 Hb3.
        split; [apply futs_same; auto|now apply (@any_ext c)|].
        assert (Hd : Forall (ndef c) (dn ++ [i])).
        { apply Forall_app. split; auto. constructor; auto. now apply not_def. }
        unfold scan_next. destruct kd eqn:Ek.
        - specialize (Hb1 eq_refl). subst b. destruct H6 as (H6 & H7 & H8). destruct fm eqn:Ef.
          + unfold ctl. cbn [cpc wpc out]. repeat split; auto. exists (dn ++ [i]). rewrite <- app_assoc. rewrite Ef. split; auto.
            unfold past. rewrite Ek. split; [exact Hd|]. split; [discriminate|]. split; [rewrite Ef; discriminate|].
            cbn [hist]. intros x Hx. apply in_or_app. left. auto.
          + unfold ctl, scanned. rewrite ?Ek. cbn [cpc wpc out]. repeat split; auto.
            unfold spawned. rewrite Ek, Ef. exists dn, i, todo. split; [exact H4|]. split; [cbn; auto|].
            destruct (f0 i) as [o0|w0 o0| |o0] eqn:E0; try (left; apply not_def; discriminate).
            right. destruct (@f_by c HF i) as [w Hw]; [now exists o0|now apply not_def|].
            unfold by_other. cbn [hist]. destruct w; [right|exfalso|left; exact Hw].
            * apply H8. now apply by_call_in.
            * eapply (f_now HF); eauto.
        - destruct H6 as (H6 & H7 & H8). destruct b.
          + specialize (Hb2 eq_refl eq_refl). unfold ctl, scanned, run_start. rewrite ?Ek. cbn [cpc wpc out]. repeat split; auto.
            apply Exists_exists. exists i. split; [|exact Hb2]. apply in_order. rewrite H4. apply in_or_app. right. now left.
          + specialize (Hb3 eq_refl eq_refl). unfold ctl. cbn [cpc wpc out]. repeat split; auto. exists (dn ++ [i]). rewrite <- app_assoc. split; auto.
            unfold past. rewrite Ek. split; [exact Hd|]. cbn [hist]. repeat split; auto. apply Forall_app. split; auto.
            constructor; auto. split.
            * intros R. apply Hb3. rewrite (f_rdy HF R). exact R.
            * intros D. destruct (@gone c i HF Nd) as [G|G]; auto; [|easy]. intros o E. apply Hb3. now exists o. }
      destruct (fu c i) as [o|w o| |o] eqn:Ei.
      * (* its deferred function begins *)
        injection Hs as <-.
        assert (Hfw : forward c (MkWn (fset (fu c) i (Busy ByCall o)) (CExec i todo r) (wpc c) (out c) (EExec ByCall i :: hist c))).
        { apply forward_fset; [rewrite Ei; constructor|apply incl_tl, incl_refl]. }
        split.
        -- apply futs_take; auto; [|discriminate]. intros _. now exists todo, r.
        -- intros K. cbn [hist by_call]. rewrite K in H6. destruct H6 as (H6 & H7 & H8). rewrite H7. right. exists dn, i, todo. repeat split; auto.
           now apply (st_po Hfw).
        -- unfold ctl. cbn [cpc wpc out fu]. repeat split; auto; [exists o; apply fset_same|]. exists dn. split; auto. split; [now apply (st_ndef Hfw)|].
           destruct kd; [|tauto]. destruct H6 as (H6 & H7 & H8). split; [intros E; apply (st_rdy Hfw); auto|]. split; auto.
           cbn [hist by_call]. intros x [->|Hx]; [now left|right; auto].
      * injection Hs as <-. eapply Hno; try reflexivity; try discriminate.
        intros _ _ [o' X]. discriminate.
      * injection Hs as <-. eapply Hno; try reflexivity; try discriminate.
        intros _ _ [o' X]. discriminate.
      * injection Hs as <-. eapply Hno; try reflexivity; try discriminate.
        -- intros ->. reflexivity.
        -- intros _ _. now exists o.
        -- intros ->. discriminate.
  - (* a deferred function ends *)
    unfold ctl in HC. rewrite Ec in HC. destruct HC as (H1 & H2 & H3 & [o Ei] & dn & H4 & H5 & H6).
    rewrite Ei in Hs. injection Hs as <-.
    set (c' := MkWn (fset (fu c) i (Ready o)) (scan_next kd fm inp true todo r) (wpc c) (out c) (hist c)).
    assert (Nc : forall j o', j <> i -> fu c j <> Busy ByCall o').
    { intros j o' Hn B. destruct (f_call HF _ B) as (td & r' & E). congruence. }
    assert (Hfw : forward c c') by (apply forward_fset; [rewrite Ei; constructor|apply incl_refl]).
    assert (HF' : futs c').
    { apply futs_ready; auto; [rewrite Ei; intros [? ?]; discriminate|rewrite Ei; intros [? ?]; discriminate]. }
    assert (Ri : ready (fu c' i)) by (cbn; rewrite fset_same; now exists o).
    split; [exact HF'|now apply (st_any Hfw)|].
    unfold c' in *. unfold scan_next in *. destruct kd eqn:Ek.
    + destruct H6 as (H6 & H7 & H8).
      assert (G : ctl (MkWn (fset (fu c) i (Ready o)) (CScan todo r) (wpc c) (out c) (hist c))).
      { unfold ctl. cbn [cpc wpc out]. repeat split; auto. exists (dn ++ [i]). rewrite <- app_assoc. split; auto.
        unfold past. rewrite Ek. split; [|split; [|split; [exact H7|]]].
        - apply Forall_app. split; [apply (st_ndef Hfw H5)|]. constructor; auto. cbn [fu]. rewrite fset_same. intros [? ?]. discriminate.
        - intros E. apply Forall_app. split; [apply (st_rdy Hfw (H6 E))|]. constructor; auto.
        - cbn [hist]. intros x Hx. apply in_or_app. destruct (H8 x Hx) as [->|H]; [right; now left|now left]. }
      destruct fm; exact G.
    + unfold ctl, scanned, run_start. rewrite ?Ek. cbn [cpc wpc out]. repeat split; auto.
      apply Exists_exists. exists i. split; [|exact Ri]. apply in_order. rewrite H4. apply in_or_app. right. now left.
  - (* the thread is started *)
    injection Hs as <-. unfold ctl in HC. rewrite Ec in HC. destruct HC as (H1 & H2 & H3 & H4).
    assert (Nc : forall j o', fu c j <> Busy ByCall o') by (apply no_call; [auto|rewrite Ec; discriminate]).
    assert (Nw : forall j o', fu c j <> Busy ByWork o') by (apply no_work; [auto|rewrite H1; discriminate]).
    split; [apply futs_same; auto; discriminate|now apply (@any_ext c)|].
    unfold ctl. cbn [cpc wpc out]. split; auto. split; [now apply (@spawned_ext c)|].
    unfold loop_ok, run_start. destruct kd; auto. exists []. split; auto.
  - (* run() on the calling thread *)
    unfold ctl in HC. rewrite Ec in HC. destruct HC as (H1 & H2 & H3 & H4).
    assert (Nc : forall j o', fu c j <> Busy ByCall o') by (apply no_call; [auto|rewrite Ec; discriminate]).
    destruct kd eqn:Ek.
    + destruct H4 as ((todo & dn & -> & H4) & H5). destruct todo as [|i todo]; cbn [loop_step] in Hs.
      * injection Hs as <-. split; [apply futs_same; auto|now apply (@any_ext c)|].
        unfold ctl. cbn [cpc wpc out]. rewrite H1. split; auto. unfold finished. rewrite Ek. exact H5.
      * assert (Ri : ready (fu c i)). { rewrite Forall_forall in H5. apply H5. rewrite H4. apply in_or_app. right. now left. }
        destruct Ri as [o Ri]. rewrite Ri in Hs. injection Hs as <-. cbn [app].
        split; [apply futs_same; auto|now apply (@any_ext c)|].
        unfold ctl. cbn [cpc wpc out]. rewrite ?Ek. repeat split; auto. exists todo, (dn ++ [i]). rewrite <- app_assoc. auto.
    + destruct H4 as [-> H4]. cbn [loop_step] in Hs. destruct (existsb _ inp) eqn:Ee; [|discriminate]. injection Hs as <-.
      split; [apply futs_same; auto|now apply (@any_ext c)|].
      unfold ctl. cbn [cpc wpc out]. rewrite H1. split; auto. unfold finished. rewrite Ek. now right.
  - (* the state is destroyed *)
    unfold ctl in HC. rewrite Ec in HC. destruct HC as [H1 H2]. rewrite H2 in Hs. destruct waits; [discriminate|]. injection Hs as <-.
    assert (Nc : forall j o', fu c j <> Busy ByCall o') by (apply no_call; [auto|rewrite Ec; discriminate]).
    split; [apply futs_same; auto|now apply (@any_ext c)|]. unfold ctl. cbn [cpc wpc out]. auto.
Qed.

Lemma Inv_fail c c' : fail_step c = Some c' -> Inv c -> Inv c'.
Proof.
  intros Hs [HF HA HC]. unfold fail_step in Hs. destruct (cpc c) eqn:Ec; try discriminate. injection Hs as <-.
  unfold ctl in HC. rewrite Ec in HC. destruct HC as (H1 & H2 & H3 & H4).
  assert (Nc : forall j o', fu c j <> Busy ByCall o') by (apply no_call; [auto|rewrite Ec; discriminate]).
  split; [apply futs_same; auto|now apply (@any_ext c)|]. unfold ctl. cbn [cpc wpc out]. auto.
Qed.

Lemma work_ret c w : ctl c -> wpc c = WRun w -> cpc c = CRet.
Proof.
  intros H E. unfold ctl in H. destruct (cpc c); try reflexivity; exfalso; destruct H as [H _]; congruence.
Qed.

Lemma existsb_ready c l : existsb (fun i => is_ready (fu c i)) l = true <-> Exists (rdy c) l.
Proof.
  rewrite existsb_exists, Exists_exists. split; intros (i & Hi & H); exists i; split; auto.
  - unfold is_ready in H. destruct (fu c i) as [| | |o]; try discriminate. now exists o.
  - destruct H as [o H]. now rewrite H.
Qed.

Lemma Inv_work c c' : work_step inp c = Some c' -> Inv c -> Inv c'.
Proof.
  intros Hs [HF HA HC]. unfold work_step in Hs. destruct (wpc c) as [|w|] eqn:Ew; try discriminate.
  pose proof (@work_ret c w HC Ew) as Ec.
  assert (Nc : forall j o', fu c j <> Busy ByCall o') by (apply no_call; [auto|rewrite Ec; discriminate]).
  unfold ctl in HC. rewrite Ec, Ew in HC. destruct HC as (H1 & H2 & H3).
  unfold loop_ok in H3. destruct kd eqn:Ek; destruct w as [todo|i todo|]; try easy.
  - destruct H3 as (dn & H3 & H4).
    assert (Nw : forall j o', fu c j <> Busy ByWork o') by (apply no_work; [auto|rewrite Ew; discriminate]).
    destruct todo as [|i todo]; cbn [loop_step] in Hs.
    + injection Hs as <-. rewrite app_nil_r in H3.
      split; [apply futs_same; auto; discriminate|now apply (@any_ext c)|].
      unfold ctl. cbn [cpc wpc out]. rewrite Ec. split; auto. split; [|now apply (@spawned_ext c)].
      unfold finished. rewrite Ek. rewrite H3. exact H4.
    + destruct (fu c i) as [o|w o| |o] eqn:Ei; try discriminate; injection Hs as <-.
      * assert (Hfw : forward c (MkWn (fset (fu c) i (Busy ByWork o)) (cpc c) (WRun (LAllExec i todo)) (out c) (EExec ByWork i :: hist c))).
        { apply forward_fset; [rewrite Ei; constructor|apply incl_tl, incl_refl]. }
        cbn [app]. split.
        -- apply futs_take; auto; try discriminate. intros _. now exists todo.
        -- now apply (st_any Hfw).
        -- unfold ctl. cbn [cpc wpc out]. rewrite Ec. split; auto. rewrite Ec in Hfw. split; [now apply (st_spawned Hfw)|].
           unfold loop_ok. rewrite Ek. split; [exists o; apply fset_same|]. exists dn. split; auto. apply (st_rdy Hfw H4).
      * cbn [app]. split; [apply futs_same; auto; discriminate|now apply (@any_ext c)|].
        unfold ctl. cbn [cpc wpc out]. rewrite Ec. split; auto. split; [now apply (@spawned_ext c)|].
        unfold loop_ok. rewrite Ek. exists (dn ++ [i]). rewrite <- app_assoc. split; auto. apply Forall_app. split; auto. constructor; auto. now exists o.
  - destruct H3 as ([o Ei] & dn & H3 & H4). cbn [loop_step] in Hs. rewrite Ei in Hs. injection Hs as <-. cbn [app].
    assert (Hfw : forward c (MkWn (fset (fu c) i (Ready o)) (cpc c) (WRun (LAll todo)) (out c) (hist c))).
    { apply forward_fset; [rewrite Ei; constructor|apply incl_refl]. }
    assert (Nw : forall j o', j <> i -> fu c j <> Busy ByWork o').
    { intros j o' Hn B. destruct (f_work HF _ B) as (td & E). congruence. }
    split.
    + apply futs_ready; auto; try discriminate; rewrite Ei; intros [? ?]; discriminate.
    + now apply (st_any Hfw).
    + unfold ctl. cbn [cpc wpc out]. rewrite Ec. rewrite Ec in Hfw. split; auto. split; [now apply (st_spawned Hfw)|].
      unfold loop_ok. rewrite Ek. exists (dn ++ [i]). rewrite <- app_assoc. split; auto. apply Forall_app. split; [apply (st_rdy Hfw H4)|].
      constructor; auto. cbn [fu]. rewrite fset_same. now exists o.
  - cbn [loop_step] in Hs. destruct (existsb _ inp) eqn:Ee; [|discriminate]. injection Hs as <-.
    assert (Nw : forall j o', fu c j <> Busy ByWork o') by (apply no_work; [auto|rewrite Ew; discriminate]).
    split; [apply futs_same; auto; discriminate|now apply (@any_ext c)|].
    unfold ctl. cbn [cpc wpc out]. rewrite Ec. split; auto. split; [|now apply (@spawned_ext c)].
    unfold finished. rewrite Ek. right. apply existsb_ready. exact Ee.
Qed.

Lemma Inv_step l c c' : step kd fm waits inp l c = Some c' -> Inv c -> Inv c'.
Proof.
  intros Hs HI. destruct l as [| | |i o|i|i]; cbn [step] in Hs.
  - eapply Inv_call; eauto.
  - eapply Inv_fail; eauto.
  - eapply Inv_work; eauto.
  - destruct (fu c i) as [|?|?|] eqn:Ei; try discriminate. injection Hs as <-.
    apply env_step; auto; try (rewrite Ei; discriminate); [rewrite Ei; constructor|apply incl_refl|].
    apply futs_ready; auto; [apply HI|rewrite Ei; intros [? ?]; discriminate|rewrite Ei; intros [? ?]; discriminate].
  - destruct (fu c i) as [o|?|?|] eqn:Ei; try discriminate. injection Hs as <-.
    apply env_step; auto; try (rewrite Ei; discriminate); [rewrite Ei; constructor|apply incl_tl, incl_refl|].
    apply futs_take; auto; try discriminate. apply HI.
  - destruct (fu c i) as [|w o|?|] eqn:Ei; try discriminate. destruct w; try discriminate. injection Hs as <-.
    apply env_step; auto; try (rewrite Ei; discriminate); [rewrite Ei; constructor|apply incl_refl|].
    apply futs_ready; auto; [apply HI|rewrite Ei; intros [? ?]; discriminate|rewrite Ei; intros [? ?]; discriminate].
Qed.

Lemma Inv0 : fresh f0 -> Inv (wn0 f0).
Proof.
  intros Hf. split.
  - split; cbn; auto.
    + intros i. destruct (f0 i); auto.
    + intros i D N. easy.
    + intros i w o [o' D] E. congruence.
    + intros i o E. pose proof (Hf _ _ _ E). discriminate.
    + intros i o E. pose proof (Hf _ _ _ E). discriminate.
  - intros _. now left.
  - cbn. auto.
Qed.

Lemma run_inv (P : wn -> Prop) : (forall l c c', step kd fm waits inp l c = Some c' -> P c -> P c') ->
  forall ls c c', run kd fm waits inp c ls = Some c' -> P c -> P c'.
Proof.
  intros Hstep. induction ls as [|l ls IH]; intros c c' H Hc; cbn in H; [injection H as <-; auto|].
  destruct (step kd fm waits inp l c) as [c1|] eqn:E; [|discriminate]. eapply IH; eauto.
Qed.

Lemma reachable_Inv c : fresh f0 -> reachable kd fm waits inp f0 c -> Inv c.
Proof. intros Hf [ls H]. eapply (@run_inv Inv); eauto using Inv_step, Inv0. Qed.
End Inv.

(** ** the number of steps *)
Definition wl (w : wloop) : nat := match w with LAll todo => 2 * length todo + 1 | LAllExec _ todo => 2 * length todo + 2 | LAny => 1 end.
Definition cm (n : nat) (p : callpc) : nat :=
  match p with
  | CStart => 2 * n + (2 * n + 1) + 4
  | CScan todo _ => 2 * length todo + (2 * n + 1) + 3
  | CExec _ todo _ => 2 * length todo + (2 * n + 1) + 4
  | CSpawn => (2 * n + 1) + 2
  | CInl w => wl w
  | CDtor => 1
  | CRet | CThrow => 0
  end.
Definition wm (p : workpc) : nat := match p with WRun w => wl w | _ => 0 end.
Definition msr (n : nat) (c : wn) : nat := cm n (cpc c) + wm (wpc c).

Lemma loop_step_wl inp me f w f' w' h : loop_step inp me f w = Some (LNext f' w' h) -> wl w' < wl w.
Proof.
  destruct w as [[|i todo]|i todo|]; cbn; try discriminate.
  - destruct (f i); try discriminate; intros [= _ <- _]; cbn; lia.
  - destruct (f i); try discriminate; intros [= _ <- _]; cbn; lia.
  - destruct (existsb _ inp); discriminate.
Qed.
Lemma wl_pos w : 0 < wl w.
Proof. destruct w; cbn; lia. Qed.
Lemma run_start_wl kd inp : wl (run_start kd inp) <= 2 * length inp + 1.
Proof. destruct kd; cbn; lia. Qed.
Lemma scanned_cm kd inp r : cm (length inp) (scanned kd inp r) <= 2 * length inp + 1 + 2.
Proof. unfold scanned. pose proof (run_start_wl kd inp). destruct kd, r; cbn [cm]; lia. Qed.
Lemma scan_next_cm kd fm inp b todo r : cm (length inp) (scan_next kd fm inp b todo r) <= 2 * length todo + (2 * length inp + 1) + 3.
Proof.
  unfold scan_next. pose proof (scanned_cm kd inp true). destruct kd, fm; try destruct b; cbn [cm]; lia.
Qed.

Lemma call_msr kd fm waits inp c c' : call_step kd fm waits inp c = Some c' -> msr (length inp) c' < msr (length inp) c.
Proof.
  unfold call_step, msr. destruct (cpc c) as [|todo r|i todo r| |w| | |] eqn:Ec; try discriminate.
  - destruct inp as [|i l] eqn:Ei; intros [= <-]; cbn [cpc wpc cm]; [cbn; lia|].
    assert (length (scan_order fm (i :: l)) = length (i :: l)) as E by (unfold scan_order; destruct fm; [reflexivity|apply rev_length]).
    rewrite E. lia.
  - destruct todo as [|i todo].
    + intros [= <-]. cbn [cpc wpc]. pose proof (scanned_cm kd inp r). cbn [cm length]. lia.
    + destruct (fu c i); intros [= <-]; cbn [cpc wpc]; try (pose proof (scan_next_cm kd fm inp false todo r)); try (pose proof (scan_next_cm kd fm inp match kd with KAll => false | KAny => true end todo r)); cbn [cm length] in *; lia.
  - destruct (fu c i); try discriminate. intros [= <-]. cbn [cpc wpc]. pose proof (scan_next_cm kd fm inp true todo r). cbn [cm length] in *. lia.
  - intros [= <-]. cbn [cpc wpc cm wm]. pose proof (run_start_wl kd inp). lia.
  - destruct (loop_step inp ByCall (fu c) w) as [[f w' h|]|] eqn:El; try discriminate; intros [= <-]; cbn [cpc wpc cm].
    + pose proof (loop_step_wl _ _ _ _ El). lia.
    + pose proof (wl_pos w). lia.
  - destruct waits; [destruct (out c); try discriminate|]; intros [= <-]; cbn [cpc wpc cm]; lia.
Qed.
Lemma work_msr inp c c' : work_step inp c = Some c' -> msr (length inp) c' < msr (length inp) c.
Proof.
  unfold work_step, msr. destruct (wpc c) as [|w|]; try discriminate.
  destruct (loop_step inp ByWork (fu c) w) as [[f w' h|]|] eqn:El; try discriminate; intros [= <-]; cbn [cpc wpc wm].
  - pose proof (loop_step_wl _ _ _ _ El). lia.
  - pose proof (wl_pos w). lia.
Qed.
Lemma fail_msr n c c' : fail_step c = Some c' -> msr n c' < msr n c.
Proof. unfold fail_step, msr. destruct (cpc c); try discriminate. intros [= <-]. cbn [cpc wpc cm]. lia. Qed.

Lemma own_bound kd fm waits inp ls : forall c c', run kd fm waits inp c ls = Some c' -> own_steps ls + msr (length inp) c' <= msr (length inp) c.
Proof.
  induction ls as [|l ls IH]; intros c c' H; cbn [run] in H; [injection H as <-; cbn; lia|].
  destruct (step kd fm waits inp l c) as [c1|] eqn:E; [|discriminate]. specialize (IH _ _ H).
  destruct l as [| | |i o|i|i]; cbn [step own_steps] in *.
  - apply call_msr in E. lia.
  - apply (fail_msr (length inp)) in E. lia.
  - apply work_msr in E. lia.
  - assert (msr (length inp) c1 = msr (length inp) c) by (destruct (fu c i); try discriminate; injection E as <-; reflexivity). lia.
  - assert (msr (length inp) c1 = msr (length inp) c) by (destruct (fu c i); try discriminate; injection E as <-; reflexivity). lia.
  - assert (msr (length inp) c1 = msr (length inp) c) by (destruct (fu c i) as [|[]| |]; try discriminate; injection E as <-; reflexivity). lia.
Qed.

Lemma own_steps_bound kd fm waits inp f0 ls c : run kd fm waits inp (wn0 f0) ls = Some c -> own_steps ls <= 4 * length inp + 5.
Proof. intros H. apply own_bound in H. unfold msr in H at 2. cbn [wn0 cpc wpc cm wm] in H. lia. Qed.

(** ** what the invariant gives *)
Section Facts.
Variables (kd : kind) (fm : form) (waits : bool) (inp : list nat) (f0 : nat -> fut) (c : wn).
Hypothesis HI : Inv kd fm inp f0 c.

Lemma out_value l : out c = Some l -> l = inp /\ finished kd inp c.
Proof.
  intros H. pose proof (i_c HI) as HC. unfold ctl in HC.
  destruct (cpc c) as [| | | | | | |]; try (destruct HC as (_ & HC & _); congruence); try (destruct HC as (_ & HC); congruence).
  destruct (wpc c).
  - destruct HC as [H1 H2]. split; [congruence|auto].
  - destruct HC as [H1 _]. congruence.
  - destruct HC as (H1 & H2 & _). split; [congruence|auto].
Qed.

Lemma call_enabled : in_call c -> (cpc c = CDtor -> waits = false) -> exists c', call_step kd fm waits inp c = Some c'.
Proof.
  intros [N1 N2] Hd. pose proof (i_c HI) as HC. unfold ctl in HC. unfold call_step.
  destruct (cpc c) as [|todo r|i todo r| |w| | |]; try easy.
  - destruct inp; eexists; reflexivity.
  - destruct todo as [|i todo]; [eexists; reflexivity|]. destruct (fu c i); eexists; reflexivity.
  - destruct HC as (_ & _ & _ & [o E] & _). rewrite E. eexists; reflexivity.
  - eexists; reflexivity.
  - destruct HC as (_ & _ & _ & HC). destruct kd.
    + destruct HC as ((todo & dn & -> & E) & HR). destruct todo as [|i todo]; cbn; [eexists; reflexivity|].
      rewrite Forall_forall in HR. destruct (HR i) as [o Ei]; [rewrite E; apply in_or_app; right; now left|]. rewrite Ei. eexists; reflexivity.
    + destruct HC as [-> HE]. cbn. apply existsb_ready in HE. rewrite HE. eexists; reflexivity.
  - rewrite (Hd eq_refl). eexists; reflexivity.
Qed.

Lemma idle_ret : cpc c = CRet -> work_step inp c = None ->
  out c = Some inp \/ match kd with KAll => exists i, In i inp /\ elsewhere (fu c i) | KAny => Forall (fun i => elsewhere (fu c i)) inp end.
Proof.
  intros Ec Hw. pose proof (i_c HI) as HC. unfold ctl in HC. rewrite Ec in HC. unfold work_step in Hw.
  assert (Nc : forall j o', fu c j <> Busy ByCall o') by (eapply no_call; [apply (i_f HI)|rewrite Ec; discriminate]).
  destruct (wpc c) as [|w|] eqn:Ew; [destruct HC; auto| |destruct HC; auto]. destruct HC as (H1 & H2 & H3). right.
  unfold loop_ok in H3. destruct kd; destruct w as [todo|i todo|]; try easy.
  - destruct H3 as (dn & H3 & H4). destruct todo as [|i todo]; [discriminate|]. exists i. split; [rewrite H3; apply in_or_app; right; now left|].
    cbn in Hw. unfold elsewhere. destruct (fu c i) as [o|[] o| |o] eqn:Ei; try discriminate; auto.
    + exfalso. eapply Nc; eauto.
    + destruct (f_work (i_f HI) _ Ei) as [td X]. congruence.
    + right. now exists o.
  - destruct H3 as ([o Ei] & _). cbn in Hw. rewrite Ei in Hw. discriminate.
  - unfold spawned in H2. assert (Forall (fun i => ~ deferred (fu c i)) inp) as Hnd by (destruct fm; tauto).
    cbn in Hw. destruct (existsb (fun i => is_ready (fu c i)) inp) eqn:Ee; [discriminate|].
    apply Forall_forall. intros i Hi. rewrite Forall_forall in Hnd. specialize (Hnd i Hi). unfold elsewhere.
    destruct (fu c i) as [o|[] o| |o] eqn:Ei; auto.
    + exfalso. apply Hnd. now exists o.
    + exfalso. eapply Nc; eauto.
    + destruct (f_work (i_f HI) _ Ei) as [td X]. congruence.
    + right. now exists o.
    + exfalso. assert (existsb (fun i => is_ready (fu c i)) inp = true) as X; [|congruence].
      apply existsb_exists. exists i. rewrite Ei. auto.
Qed.

Lemma ret_not_executing : cpc c = CRet -> forall i o, fu c i <> Busy ByCall o.
Proof. intros Ec. eapply no_call; [apply (i_f HI)|rewrite Ec; discriminate]. Qed.

Lemma ret_spawned : cpc c = CRet -> finished kd inp c \/ spawned kd fm inp f0 c.
Proof.
  intros Ec. pose proof (i_c HI) as HC. unfold ctl in HC. rewrite Ec in HC. destruct (wpc c); tauto.
Qed.

Lemma dtor_stuck : cpc c = CDtor -> waits = true -> forall l c', step kd fm waits inp l c = Some c' -> cpc c' = CDtor.
Proof.
  intros Ec -> l c' Hs. pose proof (i_c HI) as HC. unfold ctl in HC. rewrite Ec in HC. destruct HC as [H1 H2].
  destruct l; cbn [step] in Hs; unfold call_step, fail_step, work_step in Hs; rewrite ?Ec, ?H1, ?H2 in Hs; try discriminate.
  - destruct (fu c i); try discriminate. injection Hs as <-. reflexivity.
  - destruct (fu c i); try discriminate. injection Hs as <-. reflexivity.
  - destruct (fu c i) as [|[]| |]; try discriminate. injection Hs as <-. reflexivity.
Qed.
End Facts.

Lemma ready_ndef f : ready f -> ~ deferred f.
Proof. intros [o ->] [o' E]. discriminate. Qed.

Section Theorems.
Variables (waits : bool) (inp : list nat) (f0 : nat -> fut) (c : wn).
Hypothesis Hf : fresh f0.

Lemma all_value fm l : reachable KAll fm waits inp f0 c -> out c = Some l -> l = inp /\ Forall (fun i => ready (fu c i)) inp.
Proof. intros HR H. apply reachable_Inv in HR; auto. apply (out_value HR) in H. exact H. Qed.

Lemma any_value fm l : reachable KAny fm waits inp f0 c -> out c = Some l -> l = inp /\ (inp <> [] -> Exists (fun i => ready (fu c i)) inp).
Proof. intros HR H. apply reachable_Inv in HR; auto. apply (out_value HR) in H as [H1 H2]. split; auto. cbn in H2. tauto. Qed.

Lemma idle_all fm : reachable KAll fm waits inp f0 c -> idle KAll fm waits inp c -> cpc c <> CDtor ->
  cpc c = CThrow \/ cpc c = CRet /\ (out c = Some inp \/ exists i, In i inp /\ elsewhere (fu c i)).
Proof.
  intros HR [H1 H2] Hd. apply reachable_Inv in HR; auto.
  assert (Hc : cpc c = CRet \/ cpc c = CThrow).
  { destruct (cpc c) eqn:E; auto; exfalso; (destruct (call_enabled (waits := waits) HR) as [c' X]; [split; congruence|congruence|congruence]). }
  destruct Hc as [Hc|Hc]; [right|auto]. split; auto. apply (idle_ret HR Hc H2).
Qed.

Lemma idle_any fm : reachable KAny fm waits inp f0 c -> idle KAny fm waits inp c -> cpc c <> CDtor ->
  cpc c = CThrow \/ cpc c = CRet /\ (out c = Some inp \/ Forall (fun i => elsewhere (fu c i)) inp).
Proof.
  intros HR [H1 H2] Hd. apply reachable_Inv in HR; auto.
  assert (Hc : cpc c = CRet \/ cpc c = CThrow).
  { destruct (cpc c) eqn:E; auto; exfalso; (destruct (call_enabled (waits := waits) HR) as [c' X]; [split; congruence|congruence|congruence]). }
  destruct Hc as [Hc|Hc]; [right|auto]. split; auto. apply (idle_ret HR Hc H2).
Qed.

Lemma no_wait kd fm : reachable kd fm waits inp f0 c -> in_call c -> cpc c <> CDtor -> exists c', call_step kd fm waits inp c = Some c'.
Proof. intros HR H Hd. apply reachable_Inv in HR; auto. apply (call_enabled (waits := waits) HR); [exact H|easy]. Qed.

Lemma exec_once kd fm i : reachable kd fm waits inp f0 c ->
  execs i (hist c) = match f0 i, fu c i with Deferred _, Deferred _ => 0 | Deferred _, _ => 1 | _, _ => 0 end.
Proof. intros HR. apply reachable_Inv in HR; auto. apply (f_exec (i_f HR)). Qed.

Lemma ret_done kd fm : reachable kd fm waits inp f0 c -> cpc c = CRet -> forall i o, fu c i <> Busy ByCall o.
Proof. intros HR. apply reachable_Inv in HR; auto. apply (ret_not_executing HR). Qed.

Lemma all_vec_deferred : reachable KAll Vec waits inp f0 c -> cpc c = CRet -> Forall (fun i => ~ deferred (fu c i)) inp.
Proof.
  intros HR Ec. apply reachable_Inv in HR; auto. destruct (ret_spawned HR Ec) as [H|H]; [|exact H].
  cbn in H. eapply Forall_impl; [|exact H]. intros i. apply ready_ndef.
Qed.

Lemma all_tup_deferred pre i post : reachable KAll Tup waits inp f0 c -> cpc c = CRet -> inp = pre ++ i :: post ->
  deferred (fu c i) -> exists j, In j post /\ (~ deferred (f0 j) \/ by_other j c \/ ~ NoDup inp).
Proof.
  intros HR Ec E D. apply reachable_Inv in HR; auto. destruct (ret_spawned HR Ec) as [H|H].
  - exfalso. cbn in H. rewrite Forall_forall in H. apply (@ready_ndef (fu c i)); auto. apply H. rewrite E. apply in_or_app. right. now left.
  - cbn in H. destruct H as (dn & j & todo & H1 & H2 & H3).
    assert (E' : inp = rev todo ++ j :: rev dn).
    { rewrite <- (rev_involutive inp), H1, rev_app_distr. cbn. rewrite <- app_assoc. reflexivity. }
    destruct (in_dec Nat.eq_dec i dn) as [Hi|Hi].
    { exfalso. rewrite Forall_forall in H2. apply (@ready_ndef (fu c i)); auto. }
    (* so [i] is at [j]'s position or before it *)
    assert (Hpos : length pre <= length (rev todo)).
    { destruct (le_lt_dec (length pre) (length (rev todo))) as [L|L]; auto. exfalso. apply Hi. apply in_rev.
      assert (nth_error inp (length pre) = Some i) as X by (rewrite E, nth_error_app2, Nat.sub_diag by lia; reflexivity).
      rewrite E', nth_error_app2 in X by lia.
      destruct (length pre - length (rev todo)) as [|k] eqn:Ek; [lia|]. cbn in X. eapply nth_error_In; eauto. }
    destruct (le_lt_dec (length (rev todo)) (length pre)) as [L|L].
    + (* [j]'s position is [i]'s *)
      assert (length pre = length (rev todo)) as EL by lia.
      assert (i = j).
      { assert (nth_error inp (length pre) = Some i) as X by (rewrite E, nth_error_app2, Nat.sub_diag by lia; reflexivity).
        rewrite E', EL, nth_error_app2, Nat.sub_diag in X by lia. cbn in X. congruence. }
      subst j. exfalso. destruct H3 as [H3|[H3|H3]]; auto.
      * apply H3. destruct D as [o D]. exists o. eapply (f_def (i_f HR)); eauto.
      * pose proof (f_exec (i_f HR) i) as X. destruct D as [o D]. rewrite D in X.
        assert (0 < execs i (hist c)); [|destruct (f0 i); lia].
        clear -H3. unfold by_other in H3. induction (hist c) as [|[w k] h IH]; [easy|]. cbn. destruct H3 as [H3|H3]; [injection H3 as -> ->; rewrite Nat.eqb_refl; lia|].
        specialize (IH H3). lia.
    + exists j. split.
      * assert (nth_error inp (length (rev todo)) = Some j) as X by (rewrite E', nth_error_app2, Nat.sub_diag by lia; reflexivity).
        rewrite E, nth_error_app2 in X by lia.
        destruct (length (rev todo) - length pre) as [|k] eqn:Ek; [lia|]. cbn in X. eapply nth_error_In; eauto.
      * destruct H3 as [H3|[H3|H3]]; auto. right; right. intros ND. rewrite E' in ND. apply NoDup_remove_2 in ND. apply ND. apply in_or_app. right. rewrite <- in_rev. exact H3.
Qed.

Lemma by_call_In i h : In (EExec ByCall i) h <-> In i (by_call h).
Proof.
  split; [apply by_call_in|]. induction h as [|[w j] h IH]; [easy|]. cbn. destruct w; cbn; intuition; subst; auto.
Qed.

Lemma any_one fm : reachable KAny fm waits inp f0 c -> length (by_call (hist c)) <= 1.
Proof.
  intros HR. apply reachable_Inv in HR; auto. destruct (i_a HR eq_refl) as [->|(dn & i & todo & _ & -> & _)]; cbn; lia.
Qed.

Lemma any_vec_first i : reachable KAny Vec waits inp f0 c -> In (EExec ByCall i) (hist c) ->
  exists pre post, inp = pre ++ i :: post /\ Forall (passed_over f0 c) pre.
Proof.
  intros HR H. apply reachable_Inv in HR; auto. apply by_call_In in H.
  destruct (i_a HR eq_refl) as [E|(dn & j & todo & E1 & E2 & E3)]; [rewrite E in H; easy|].
  rewrite E2 in H. destruct H as [->|[]]. exists dn, todo. auto.
Qed.

Lemma any_tup_last i : reachable KAny Tup waits inp f0 c -> In (EExec ByCall i) (hist c) ->
  exists pre post, inp = pre ++ i :: post /\ Forall (passed_over f0 c) post.
Proof.
  intros HR H. apply reachable_Inv in HR; auto. apply by_call_In in H.
  destruct (i_a HR eq_refl) as [E|(dn & j & todo & E1 & E2 & E3)]; [rewrite E in H; easy|].
  rewrite E2 in H. destruct H as [->|[]]. exists (rev todo), (rev dn). split; [|now apply Forall_rev].
  cbn in E1. rewrite <- (rev_involutive inp), E1, rev_app_distr. cbn. rewrite <- app_assoc. reflexivity.
Qed.

Lemma any_at_once fm i : reachable KAny fm waits inp f0 c -> cpc c = CRet -> In i inp -> ready (f0 i) \/ deferred (f0 i) /\ ~ by_other i c -> out c = Some inp.
Proof.
  intros HR Ec Hi Hr. apply reachable_Inv in HR; auto. pose proof (i_c HR) as HC. unfold ctl in HC. rewrite Ec in HC.
  destruct (wpc c); [tauto| |tauto]. destruct HC as (_ & HC & _). exfalso.
  assert (Forall (passed_over f0 c) inp) as HP by (cbn in HC; destruct fm; tauto).
  rewrite Forall_forall in HP. destruct (HP i Hi) as [P1 P2]. tauto.
Qed.

Lemma fail_throws kd fm : reachable kd fm false inp f0 c -> cpc c = CDtor -> exists c', call_step kd fm false inp c = Some c' /\ cpc c' = CThrow.
Proof. intros HR Ec. unfold call_step. rewrite Ec. eexists. split; reflexivity. Qed.

Lemma fail_hangs kd fm : reachable kd fm true inp f0 c -> cpc c = CDtor -> forall ls c', run kd fm true inp c ls = Some c' -> cpc c' = CDtor.
Proof.
  intros HR Ec ls c' H. apply reachable_Inv in HR; auto.
  assert (X : Inv kd fm inp f0 c' /\ cpc c' = CDtor); [|tauto].
  eapply (@run_inv kd fm true inp (fun x => Inv kd fm inp f0 x /\ cpc x = CDtor)); eauto.
  intros l x x' Hs [I1 I2]. split; [eapply Inv_step; eauto|]. eapply (dtor_stuck I1 I2 eq_refl); eauto.
Qed.
End Theorems.
