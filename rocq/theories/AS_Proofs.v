(** * Proofs about async (AS_Model.v) *)
From Verif Require Import AS_Model AS_Spec.
Import ListNotations.

Fixpoint tot (w : client -> nat) (l : list client) : nat := match l with [] => 0 | x :: l' => w x + tot w l' end.
Lemma tot_handles c : handles c = tot own (cls c).
Proof. unfold handles. induction (cls c) as [|x l IH]; cbn; auto. Qed.

Lemma tot_upd w l i x y : nth_error l i = Some x -> tot w (upd l i y) + w x = tot w l + w y.
Proof.
  revert i. induction l as [|a l IH]; intros [|i] H; cbn in *; try discriminate.
  - injection H as ->. lia.
  - specialize (IH i H). lia.
Qed.
Lemma tot_ge w l i x : nth_error l i = Some x -> w x <= tot w l.
Proof.
  revert i. induction l as [|a l IH]; intros [|i] H; cbn in *; try discriminate.
  - injection H as ->. lia.
  - specialize (IH i H). lia.
Qed.
Lemma tot_repeat w x n : w x = 0 -> tot w (repeat x n) = 0.
Proof. intros H. induction n; cbn; auto. lia. Qed.
Lemma tot_zero w l : (forall x, In x l -> w x = 0) -> tot w l = 0.
Proof.
  induction l as [|a l IH]; intros H; cbn; auto.
  rewrite (H a (or_introl eq_refl)), IH; auto. intros x Hx. apply H. right. exact Hx.
Qed.

Definition wA (x : client) : nat := match pc x with Alloc => 1 | _ => 0 end.
Definition wS (x : client) : nat := match pc x with Started => 1 | _ => 0 end.
Definition wT (x : client) : nat := match pc x with Destroying true => 1 | _ => 0 end.
Definition wF (x : client) : nat := match pc x with Destroying false => 1 | _ => 0 end.
Definition wW (x : client) : nat := match pc x with Waiting => match own x with 0 => 1 | _ => 0 end | _ => 0 end.

Definition wref (k : wpc) : nat := match k with WBegin | WCall | WStore _ | WDrop => 1 | _ => 0 end.
Definition wnone (k : wpc) : nat := match k with WNone => 1 | _ => 0 end.
Definition wdes (k : wpc) : nat := match k with WDestroy => 1 | _ => 0 end.
Definition wfin (k : wpc) : nat := match k with WDrop | WDestroy | WEnd => 1 | _ => 0 end.
Definition wsta (k : wpc) : nat := match k with WNone | WBegin => 0 | _ => 1 end.
Definition isome (o : option res) : nat := match o with Some _ => 1 | None => 0 end.

(** every wait that returned did so with the function's outcome, after the function had ended *)
Fixpoint hok (h : list ev) : Prop :=
  match h with
  | [] => True
  | EGot _ r :: h' => In (EEnd r) h' /\ hok h'
  | _ :: h' => hok h'
  end.

Record Inv (c : as_) : Prop := MkInv {
  i1 : refs c = tot own (cls c) + tot wA (cls c) + tot wS (cls c) + wref (wk c);
  i2 : called c = false -> tot own (cls c) = 0 /\ tot wA (cls c) = 0 /\ tot wS (cls c) = 0 /\ tot wT (cls c) = 0 /\ tot wF (cls c) = 0 /\ wnone (wk c) = 1 /\ freed c = 0;
  i3 : called c = true -> (0 < refs c /\ tot wT (cls c) = 0 /\ tot wF (cls c) = 0 /\ wdes (wk c) = 0 /\ freed c = 0) \/
                          (refs c = 0 /\ tot wT (cls c) + tot wF (cls c) + wdes (wk c) + freed c = 1);
  i4 : 0 < tot wA (cls c) -> tot wA (cls c) = 1 /\ wnone (wk c) = 1 /\ tot own (cls c) = 0 /\ tot wS (cls c) = 0;
  i5 : 0 < tot wS (cls c) -> tot wS (cls c) = 1 /\ wnone (wk c) = 0 /\ tot own (cls c) = 0 /\ tot wA (cls c) = 0;
  i6 : (0 < tot wT (cls c) -> wnone (wk c) = 1) /\ (0 < tot wF (cls c) -> wnone (wk c) = 0) /\ (0 < tot own (cls c) -> wnone (wk c) = 0);
  i7 : isome (don c) = wfin (wk c);
  i8 : tot wW (cls c) = 0;
  i9 : bad c = false;
  j1 : starts (hist c) = wsta (wk c);
  j2 : frees (hist c) = freed c;
  j3 : forall r, wk c = WStore r -> In (EEnd r) (hist c);
  j4 : forall r, don c = Some r -> In (EEnd r) (hist c);
  j5 : hok (hist c);
  j6 : forall i, In (EReturn i) (hist c) -> wnone (wk c) = 0;
  j7 : forall i, In (EThrow i) (hist c) -> wnone (wk c) = 1 /\ freed c = 1;
  j8 : forall r r', In (EEnd r) (hist c) -> In (EEnd r') (hist c) -> r = r';
  j9 : forall r, In (EEnd r) (hist c) -> wsta (wk c) = 1 /\ wk c <> WCall
}.

Lemma Inv_init n : Inv (as0 n).
Proof.
  constructor; cbn; auto; rewrite ?tot_repeat by reflexivity; try lia; try tauto; try discriminate.
  all: try (intros; contradiction).
Qed.

Ltac use_upd H y :=
  pose proof (@tot_upd own _ _ _ y H); pose proof (@tot_upd wA _ _ _ y H); pose proof (@tot_upd wS _ _ _ y H);
  pose proof (@tot_upd wT _ _ _ y H); pose proof (@tot_upd wF _ _ _ y H); pose proof (@tot_upd wW _ _ _ y H);
  pose proof (@tot_ge own _ _ _ H); pose proof (@tot_ge wA _ _ _ H); pose proof (@tot_ge wS _ _ _ H);
  pose proof (@tot_ge wT _ _ _ H); pose proof (@tot_ge wF _ _ _ H); pose proof (@tot_ge wW _ _ _ H).

Lemma touch_false c : Inv c -> freed c = 0 -> touch c = false.
Proof. intros HI H. unfold touch. rewrite (i9 _ HI), H. reflexivity. Qed.

(** nobody refers to the state once it has been destroyed *)
Lemma fr0 c : Inv c -> called c = true -> 0 < refs c -> freed c = 0.
Proof. intros HI Hc Hr. destruct (i3 _ HI Hc) as [H|H]; lia. Qed.
Lemma called_of c : Inv c -> 0 < refs c \/ 0 < tot wT (cls c) \/ 0 < tot wF (cls c) \/ 0 < wdes (wk c) \/ 0 < wref (wk c) \/ wnone (wk c) = 0 -> called c = true.
Proof.
  intros HI H. destruct (called c) eqn:E; auto. destruct (i2 _ HI E) as (A1 & A2 & A3 & A4 & A5 & A6 & A7).
  pose proof (i1 _ HI). destruct (wk c); cbn in *; lia.
Qed.

Section S.
Variable waits : bool.

Ltac hin := intros;
  repeat match goal with
  | H : exists _, _ |- _ => destruct H
  | H : _ = _ \/ _ |- _ => destruct H as [H|H]; [first [discriminate H | injection H as H]|]
  end.
Lemma wfacts k : (wnone k = 0 \/ wnone k = 1 /\ wref k = 0 /\ wdes k = 0 /\ wfin k = 0 /\ wsta k = 0) /\
  wref k + wdes k <= 1 /\ wfin k <= wsta k.
Proof. destruct k; cbn; lia. Qed.
Ltac fin := constructor; cbn; unfold seti; auto; try lia; try (intros; lia); try tauto; try discriminate;
  try (repeat split; intros; lia); hin; eauto;
  try (match goal with
       | J : forall i, In (EThrow i) _ -> _ , H : In (EThrow _) _ |- _ => specialize (J _ H)
       | J : forall i, In (EReturn i) _ -> _ , H : In (EReturn _) _ |- _ => specialize (J _ H)
       | J : forall r, In (EEnd r) _ -> _ /\ _ , H : In (EEnd _) _ |- _ => destruct (J _ H); exfalso
       end; lia); try congruence; try (exfalso; congruence).

Lemma Inv_step c l c' : Inv c -> step waits l c = Some c' -> Inv c'.
Proof.
  intros HI Hs. pose proof (wfacts (wk c)) as WF.
  destruct l as [i|i|i|i|i j|i|i|i|i|r]; cbn [step] in Hs.
  - (* LAsync *)
    destruct (nth_error (cls c) i) as [[o []]|] eqn:Hi; try discriminate.
    destruct (called c) eqn:Hc; [discriminate|]. injection Hs as <-.
    use_upd Hi (MkC o Alloc). cbn in *. pose proof (i2 _ HI Hc).
    destruct HI. fin.
  - (* LSpawn *)
    destruct (nth_error (cls c) i) as [[o []]|] eqn:Hi; try discriminate. injection Hs as <-.
    use_upd Hi (MkC o Started). cbn in *. pose proof (i4 _ HI ltac:(lia)) as HH4. pose proof (i1 _ HI).
    pose proof (called_of _ HI ltac:(lia)) as Hc. pose proof (fr0 _ HI Hc ltac:(lia)) as Hf. pose proof (i3 _ HI Hc).
    rewrite (touch_false _ HI Hf).
    assert (Hn : wk c = WNone) by (destruct (wk c); cbn in HH4; try lia; auto).
    destruct HI. rewrite Hn in *. cbn in *. fin.
  - (* LFail *)
    destruct (nth_error (cls c) i) as [[o []]|] eqn:Hi; try discriminate. injection Hs as <-.
    use_upd Hi (MkC o (Destroying true)). cbn in *. pose proof (i4 _ HI ltac:(lia)) as HH4. pose proof (i1 _ HI).
    pose proof (called_of _ HI ltac:(lia)) as Hc. pose proof (fr0 _ HI Hc ltac:(lia)) as Hf. pose proof (i3 _ HI Hc).
    destruct HI. fin.
  - (* LReturn *)
    destruct (nth_error (cls c) i) as [[o []]|] eqn:Hi; try discriminate. injection Hs as <-.
    use_upd Hi (MkC (S o) Idle). cbn in *. pose proof (i5 _ HI ltac:(lia)) as HH5. pose proof (i1 _ HI).
    pose proof (called_of _ HI ltac:(lia)) as Hc. pose proof (i3 _ HI Hc).
    destruct HI. fin.
  - (* LCopy *)
    destruct (nth_error (cls c) i) as [[[|o] []]|] eqn:Hi; try discriminate.
    destruct (nth_error (cls c) j) as [[o' p]|] eqn:Hj; try discriminate. injection Hs as <-.
    use_upd Hj (MkC (S o') p). pose proof (@tot_ge own _ _ _ Hi). cbn in *. pose proof (i1 _ HI).
    pose proof (called_of _ HI ltac:(lia)) as Hc. pose proof (i3 _ HI Hc).
    destruct HI. fin; destruct p as [| | | |[]]; cbn in *; lia.
  - (* LWait *)
    destruct (nth_error (cls c) i) as [[[|o] []]|] eqn:Hi; try discriminate. injection Hs as <-.
    use_upd Hi (MkC (S o) Waiting). cbn in *. pose proof (i1 _ HI).
    pose proof (called_of _ HI ltac:(lia)) as Hc. pose proof (fr0 _ HI Hc ltac:(lia)) as Hf. pose proof (i3 _ HI Hc).
    rewrite (touch_false _ HI Hf).
    destruct HI. fin.
  - (* LGot *)
    destruct (nth_error (cls c) i) as [[o []]|] eqn:Hi; try discriminate.
    destruct (don c) as [r|] eqn:Hd; [|discriminate]. injection Hs as <-.
    use_upd Hi (MkC o Idle). cbn in *. pose proof (i1 _ HI). pose proof (i8 _ HI).
    assert (Ho : 0 < o) by (destruct o; cbn in *; lia).
    pose proof (called_of _ HI ltac:(lia)) as Hc. pose proof (fr0 _ HI Hc ltac:(lia)) as Hf. pose proof (i3 _ HI Hc).
    rewrite (touch_false _ HI Hf).
    destruct HI. rewrite Hd in *. fin.
  - (* LDrop *)
    destruct (nth_error (cls c) i) as [[[|o] []]|] eqn:Hi; try discriminate.
    pose proof (@tot_ge own _ _ _ Hi) as Hge. cbn in Hge. pose proof (i1 _ HI).
    pose proof (called_of _ HI ltac:(lia)) as Hc. pose proof (fr0 _ HI Hc ltac:(lia)) as Hf. pose proof (i3 _ HI Hc).
    destruct (Nat.eqb_spec (refs c) 1); injection Hs as <-.
    + use_upd Hi (MkC o (Destroying false)). cbn in *. destruct HI. fin.
    + use_upd Hi (MkC o Idle). cbn in *. destruct HI. fin.
  - (* LDestroy *)
    destruct (nth_error (cls c) i) as [[o []]|] eqn:Hi; try discriminate.
    destruct (dtor_ready waits c) eqn:Hdr; [|discriminate]. injection Hs as <-.
    use_upd Hi (MkC o Idle).
    assert (Hc : called c = true) by (apply called_of; auto; destruct leaving; cbn in *; lia).
    pose proof (i3 _ HI Hc).
    assert (Hf : freed c = 0) by (destruct leaving; cbn in *; lia).
    rewrite (touch_false _ HI Hf). destruct HI. destruct leaving; cbn in *; fin.
  - (* LWork *)
    unfold work_step in Hs. destruct (wk c) eqn:Hk; try discriminate.
    + injection Hs as <-. destruct HI. rewrite Hk in *. cbn in *. fin.
    + injection Hs as <-. destruct HI. rewrite Hk in *. cbn in *. fin.
      all: try (left; congruence).
      all: try (split; [reflexivity|discriminate]).
      all: match goal with H : In (EEnd _) _ |- _ => destruct (j18 _ H) as [_ []]; reflexivity end.
    + injection Hs as <-. pose proof (i1 _ HI) as E1. rewrite Hk in E1. cbn in E1.
      pose proof (called_of _ HI ltac:(lia)) as Hc. pose proof (fr0 _ HI Hc ltac:(lia)) as Hf.
      rewrite (touch_false _ HI Hf). destruct HI. rewrite Hk in *. cbn in *. fin.
      all: try (split; [reflexivity|discriminate]).
      all: try (match goal with H : Some _ = Some _ |- _ => injection H as <- end; auto).
    + pose proof (i1 _ HI) as E1. rewrite Hk in E1. cbn in E1.
      pose proof (called_of _ HI ltac:(lia)) as Hc. pose proof (i3 _ HI Hc) as E3.
      destruct (Nat.eqb_spec (refs c) 1); injection Hs as <-; destruct HI; rewrite Hk in *; cbn in *; fin.
      all: split; [reflexivity|discriminate].
    + destruct (dtor_ready waits c) eqn:Hdr; [|discriminate]. injection Hs as <-.
      assert (Hc : called c = true) by (apply called_of; auto; rewrite Hk; cbn; lia).
      pose proof (i3 _ HI Hc) as E3. rewrite Hk in E3. cbn in E3.
      rewrite (touch_false _ HI ltac:(lia)). destruct HI. rewrite Hk in *. cbn in *. fin.
      all: split; [reflexivity|discriminate].
Qed.

Lemma Inv_reachable n c : reachable waits n c -> Inv c.
Proof.
  intros [ls Hr]. revert Hr. generalize (Inv_init n). generalize (as0 n). induction ls as [|l ls IH]; intros c0 H0 Hr; cbn in Hr.
  - injection Hr as <-. exact H0.
  - destruct (step waits l c0) as [c1|] eqn:E; [|discriminate]. apply (IH c1); auto. eapply Inv_step; eauto.
Qed.

Lemma hok_got h : hok h -> forall h1 i r h2, h = h1 ++ EGot i r :: h2 -> In (EEnd r) h2.
Proof.
  intros H h1. revert h H. induction h1 as [|e h1 IH]; intros h H i r h2 ->; cbn in H.
  - apply H.
  - refine (IH (h1 ++ EGot i r :: h2) _ i r h2 eq_refl). destruct e; auto. apply H.
Qed.

(** the started thread always ends *)
Lemma worker_ends n c r : reachable waits n c -> exists k c', k <= 6 /\ run waits c (repeat (LWork r) k) = Some c' /\ worker_idle waits c' /\ reachable waits n c'.
Proof.
  intros Hr.
  assert (Hx : forall m d, (match wk d with WBegin => 5 | WCall => 4 | WStore _ => 3 | WDrop => 2 | WDestroy => 1 | _ => 0 end) <= m -> reachable waits n d ->
    exists k c', k <= m /\ run waits d (repeat (LWork r) k) = Some c' /\ worker_idle waits c' /\ reachable waits n c').
  { induction m as [|m IH]; intros d Hm Hd.
    - exists 0, d. split; [lia|]. split; [reflexivity|]. split; [|exact Hd].
      intros r'. cbn. unfold work_step. destruct (wk d); auto; lia.
    - destruct (work_step waits r d) as [d'|] eqn:E.
      + assert (Hd' : reachable waits n d').
        { destruct Hd as [ls Hls]. exists (ls ++ [LWork r]). revert Hls. generalize (as0 n). induction ls as [|l ls IHl]; intros a Ha; cbn in *.
          - injection Ha as ->. rewrite E. reflexivity.
          - destruct (step waits l a); [auto|discriminate]. }
        assert (Hm' : match wk d' with WBegin => 5 | WCall => 4 | WStore _ => 3 | WDrop => 2 | WDestroy => 1 | _ => 0 end <= m).
        { unfold work_step in E. destruct (wk d); try discriminate.
          - injection E as <-. cbn. lia.
          - injection E as <-. cbn. lia.
          - injection E as <-. cbn. lia.
          - destruct (refs d =? 1); injection E as <-; cbn; lia.
          - destruct (dtor_ready waits d); [|discriminate]. injection E as <-. cbn. lia. }
        destruct (IH d' Hm' Hd') as (k & c' & Hk & Hrun & Hid & Hre).
        exists (S k), c'. split; [lia|]. split; [|auto]. cbn. rewrite E. exact Hrun.
      + exists 0, d. split; [lia|]. split; [reflexivity|]. split; [|exact Hd].
        intros r'. cbn. unfold work_step in *. destruct (wk d); auto; try discriminate; destruct (refs d =? 1); discriminate. }
  destruct (Hx 6 c) as (k & c' & H); [destruct (wk c); lia|exact Hr|]. exists k, c'. exact H.
Qed.

Lemma fin_some c : Inv c -> wfin (wk c) = 1 -> exists r, don c = Some r /\ In (EEnd r) (hist c).
Proof.
  intros HI H. pose proof (i7 _ HI) as H7. rewrite H in H7. destruct (don c) as [r|] eqn:E; [|discriminate].
  exists r. split; [reflexivity|]. exact (j4 _ HI _ E).
Qed.

Lemma idle_end c : Inv c -> worker_idle waits c -> wnone (wk c) = 0 -> wk c = WEnd.
Proof.
  intros HI Hid Hn. specialize (Hid (RVal 0)). cbn in Hid. unfold work_step in Hid.
  destruct (wk c) eqn:Hk; try discriminate; auto.
  - destruct (refs c =? 1); discriminate.
  - unfold dtor_ready in Hid. destruct waits; [|discriminate].
    destruct (fin_some _ HI) as (r & Hr & _); [rewrite Hk; reflexivity|]. rewrite Hr in Hid. discriminate.
Qed.

(** async has returned and its thread has nothing left to do *)
Lemma returned_done n c i : reachable waits n c -> In (EReturn i) (hist c) -> worker_idle waits c ->
  starts (hist c) = 1 /\ exists r, In (EEnd r) (hist c) /\ don c = Some r.
Proof.
  intros Hr Hin Hid. pose proof (Inv_reachable _ _ Hr) as HI. pose proof (j6 _ HI _ Hin) as Hn.
  pose proof (idle_end _ HI Hid Hn) as Hk. split.
  - rewrite (j1 _ HI), Hk. reflexivity.
  - destruct (fin_some _ HI) as (r & H1 & H2); [rewrite Hk; reflexivity|]. eauto.
Qed.

Lemma wait_enabled n c j : reachable waits n c -> worker_idle waits c -> waiting c j ->
  exists r c', step waits (LGot j) c = Some c' /\ hist c' = EGot j r :: hist c.
Proof.
  intros Hr Hid [o Hj]. pose proof (Inv_reachable _ _ Hr) as HI.
  pose proof (@tot_ge own _ _ _ Hj) as H1. pose proof (@tot_ge wW _ _ _ Hj) as H2. pose proof (i8 _ HI) as H8.
  assert (Ho : 0 < o) by (cbn in *; destruct o; cbn in *; lia). cbn in H1.
  destruct (i6 _ HI) as (_ & _ & H6). pose proof (idle_end _ HI Hid ltac:(lia)) as Hk.
  destruct (fin_some _ HI) as (r & Hd & _); [rewrite Hk; reflexivity|].
  exists r. cbn. rewrite Hj, Hd. eexists. split; reflexivity.
Qed.

Lemma lifetime n c : reachable waits n c ->
  bad c = false /\ frees (hist c) <= 1 /\
  (frees (hist c) = 1 -> handles c = 0 /\ (forall r, In (EEnd r) (hist c) \/ (starts (hist c) = 0 /\ step waits (LWork r) c = None) \/ exists r', In (EEnd r') (hist c))).
Proof.
  intros Hr. pose proof (Inv_reachable _ _ Hr) as HI. split; [exact (i9 _ HI)|].
  rewrite (j2 _ HI). pose proof (i1 _ HI). rewrite tot_handles.
  destruct (called c) eqn:Hc.
  - destruct (i3 _ HI Hc) as [H3|H3]; (split; [lia|]); intros Hf; [lia|]. split; [lia|]. intros r.
    pose proof (j1 _ HI) as J1. rewrite J1. destruct (wk c) eqn:Hk; cbn in *; try lia.
    + right. left. split; [reflexivity|]. unfold work_step. rewrite Hk. reflexivity.
    + destruct (fin_some _ HI) as (r' & _ & H'); [rewrite Hk; reflexivity|]. eauto.
  - destruct (i2 _ HI Hc) as (_ & _ & _ & _ & _ & _ & H2'). split; [lia|]. intros Hf. lia.
Qed.

(** the state is destroyed only after the function has ended, unless it was never started *)
Lemma free_after_end n c : reachable waits n c -> In EFree (hist c) -> 0 < starts (hist c) -> ended (hist c).
Proof.
  intros Hr Hin Hs. pose proof (Inv_reachable _ _ Hr) as HI.
  assert (Hf : 0 < frees (hist c)).
  { clear Hs. induction (hist c) as [|e h IH]; [destruct Hin|]. destruct Hin as [->|Hin]; cbn; [lia|]. specialize (IH Hin). destruct e; cbn; lia. }
  rewrite (j2 _ HI) in Hf. rewrite (j1 _ HI) in Hs.
  assert (Hc : called c = true).
  { destruct (called c) eqn:E; auto. destruct (i2 _ HI E) as (_ & _ & _ & _ & _ & _ & H). lia. }
  pose proof (i1 _ HI). destruct (i3 _ HI Hc) as [H3|H3]; [lia|].
  destruct (wk c) eqn:Hk; cbn in *; try lia.
  destruct (fin_some _ HI) as (r' & _ & H'); [rewrite Hk; reflexivity|]. exists r'. exact H'.
Qed.

Lemma all_gone n c : reachable waits n c -> called c = true -> handles c = 0 -> at_rest c -> worker_idle waits c -> frees (hist c) = 1.
Proof.
  intros Hr Hc Hh Hre Hid. pose proof (Inv_reachable _ _ Hr) as HI. rewrite tot_handles in Hh.
  assert (Hz : forall w, (forall x, pc x = Idle -> w x = 0) -> tot w (cls c) = 0).
  { intros w Hw. apply tot_zero. intros x Hx. apply Hw. unfold at_rest in Hre. rewrite Forall_forall in Hre. auto. }
  assert (HA : tot wA (cls c) = 0) by (apply Hz; intros x Hx; unfold wA; rewrite Hx; reflexivity).
  assert (HS : tot wS (cls c) = 0) by (apply Hz; intros x Hx; unfold wS; rewrite Hx; reflexivity).
  assert (HT : tot wT (cls c) = 0) by (apply Hz; intros x Hx; unfold wT; rewrite Hx; reflexivity).
  assert (HF : tot wF (cls c) = 0) by (apply Hz; intros x Hx; unfold wF; rewrite Hx; reflexivity).
  rewrite (j2 _ HI). pose proof (i1 _ HI). pose proof (wfacts (wk c)).
  assert (Hk : wk c = WNone \/ wk c = WEnd).
  { destruct (wnone (wk c)) eqn:E; [right; apply idle_end; auto|left; destruct (wk c); cbn in E; auto; discriminate]. }
  destruct (i3 _ HI Hc) as [H3|H3]; destruct Hk as [Hk|Hk]; rewrite Hk in *; cbn in *; lia.
Qed.

(** a client in the destructor of the last future is not held up *)
Lemma drop_never_blocks n c i o : reachable waits n c -> nth_error (cls c) i = Some (MkC o (Destroying false)) ->
  ended (hist c) /\ exists c', step waits (LDestroy i) c = Some c' /\ hist c' = EGone i :: EFree :: hist c.
Proof.
  intros Hr Hi. pose proof (Inv_reachable _ _ Hr) as HI. pose proof (@tot_ge wF _ _ _ Hi) as Hg. cbn in Hg.
  destruct (i6 _ HI) as (_ & H6 & _). specialize (H6 ltac:(lia)).
  pose proof (called_of _ HI ltac:(lia)) as Hc. pose proof (i1 _ HI). pose proof (i3 _ HI Hc).
  assert (Hk : wfin (wk c) = 1) by (destruct (wk c); cbn in *; lia).
  destruct (fin_some _ HI Hk) as (r & Hd & Hin). split; [exists r; exact Hin|].
  cbn. rewrite Hi. unfold dtor_ready. rewrite Hd. destruct waits; eexists; split; reflexivity.
Qed.

Lemma failing_facts n c i : reachable waits n c -> failing c i -> wk c = WNone /\ don c = None /\ handles c = 0 /\
  called c = true /\ tot wA (cls c) = 0 /\ tot wS (cls c) = 0 /\ tot wF (cls c) = 0 /\ tot wT (cls c) = 1.
Proof.
  intros Hr [o Hi]. pose proof (Inv_reachable _ _ Hr) as HI. pose proof (@tot_ge wT _ _ _ Hi) as Hg. cbn in Hg.
  destruct (i6 _ HI) as (H6 & _ & _). specialize (H6 ltac:(lia)).
  pose proof (called_of _ HI ltac:(lia)) as Hc. pose proof (i1 _ HI). pose proof (i3 _ HI Hc). pose proof (i7 _ HI) as H7.
  rewrite tot_handles. assert (Hk : wk c = WNone) by (destruct (wk c); cbn in H6; auto; discriminate).
  rewrite Hk in *. cbn in *. split; [reflexivity|]. split; [destruct (don c); [discriminate|reflexivity]|].
  repeat split; auto; lia.
Qed.
End S.

(** with the waiting destructor, a failure to start the thread stops everything *)
Lemma failing_stuck n c i : reachable true n c -> failing c i -> forall l, step true l c = None.
Proof.
  intros Hr Hf. destruct (failing_facts _ _ _ _ Hr Hf) as (Hk & Hd & Hh & Hc & HA & HS & _ & _). rewrite tot_handles in Hh.
  intros l.
  assert (Hown : forall j x, nth_error (cls c) j = Some x -> own x = 0) by (intros j x Hj; pose proof (@tot_ge own _ _ _ Hj); lia).
  assert (HAj : forall j x, nth_error (cls c) j = Some x -> wA x = 0) by (intros j x Hj; pose proof (@tot_ge wA _ _ _ Hj); lia).
  assert (HSj : forall j x, nth_error (cls c) j = Some x -> wS x = 0) by (intros j x Hj; pose proof (@tot_ge wS _ _ _ Hj); lia).
  destruct l as [j|j|j|j|j k|j|j|j|j|r]; cbn [step].
  all: try (destruct (nth_error (cls c) j) as [[o p]|] eqn:Hj; [|reflexivity]; pose proof (Hown _ _ Hj); pose proof (HAj _ _ Hj); pose proof (HSj _ _ Hj); cbn in *; subst o; destruct p; try reflexivity; try discriminate).
  - rewrite Hc. reflexivity.
  - rewrite Hd. reflexivity.
  - unfold dtor_ready. rewrite Hd. reflexivity.
  - unfold work_step. rewrite Hk. reflexivity.
Qed.

Lemma failing_throws n c i : reachable false n c -> failing c i ->
  starts (hist c) = 0 /\ exists c', step false (LDestroy i) c = Some c' /\ hist c' = EThrow i :: EFree :: hist c /\ frees (hist c') = 1.
Proof.
  intros Hr Hf. pose proof (Inv_reachable _ _ _ Hr) as HI.
  destruct (failing_facts _ _ _ _ Hr Hf) as (Hk & Hd & Hh & Hc & HA & HS & HF & HT).
  split; [rewrite (j1 _ HI), Hk; reflexivity|]. destruct Hf as [o Hi]. cbn. rewrite Hi. eexists. split; [reflexivity|].
  cbn. split; [reflexivity|]. rewrite (j2 _ HI). destruct (i3 _ HI Hc); lia.
Qed.

