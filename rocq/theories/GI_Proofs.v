(** * thread_group::interrupt_all (proofs) *)
From Verif Require Import GI_Model GI_Spec.

Lemma upd_eq : forall A (f : nat -> A) t x, upd f t x t = x.
Proof. intros. unfold upd. now rewrite Nat.eqb_refl. Qed.
Lemma upd_ne : forall A (f : nat -> A) t x u, u <> t -> upd f t x u = f u.
Proof. intros. unfold upd. destruct (u =? t) eqn:E; auto. apply Nat.eqb_eq in E. contradiction. Qed.
Lemma is_in_ok : forall m l, is_in m l = true <-> In m l.
Proof.
  intros m l. unfold is_in. rewrite existsb_exists. split.
  - intros (x & A & B). apply Nat.eqb_eq in B. now subst.
  - intros H. exists m. split; [auto|apply Nat.eqb_refl].
Qed.
Lemma filter_ne : forall m l x, In x (filter (fun u => negb (u =? m)) l) <-> In x l /\ x <> m.
Proof.
  intros m l x. rewrite filter_In. destruct (x =? m) eqn:E; cbn.
  - apply Nat.eqb_eq in E. split; [intros []; discriminate|intros []; contradiction].
  - apply Nat.eqb_neq in E. tauto.
Qed.

Definition holding (p : pcs) : Prop := match p with PInt _ | PJoin _ => True | _ => False end.
Fixpoint wellh (h : list ev) : Prop :=
  match h with
  | [] => True
  | x :: r => match x with
      | IRet t => exists during old, r = during ++ ICall t :: old /\ ~ In (ICall t) during /\ forall m, In (ECreate m) old -> ~ In (ERemove m) r -> In (IReq t m) during
      | IReq t m => In (ECreate m) r /\ ~ In (ERemove m) r
      | JRet t => exists during old, r = during ++ JCall t :: old /\ ~ In (JCall t) during /\ forall m, In (ECreate m) old -> ~ In (ERemove m) r -> In (EEnd m) r
      | _ => True
      end /\ wellh r
  end.
(** A call of interrupt_all or join_all: what has happened since. *)
Definition pci (g : list nat) (h : list ev) (t : nat) (p : pcs) : Prop :=
  match p with
  | PIW => exists d o, h = d ++ ICall t :: o /\ ~ In (ICall t) d
  | PInt l => (exists d o, h = d ++ ICall t :: o /\ ~ In (ICall t) d /\ forall m, In m g -> In m l \/ In (IReq t m) d) /\ forall m, In m l -> In m g
  | PJW => exists d o, h = d ++ JCall t :: o /\ ~ In (JCall t) d
  | PJoin l => exists d o, h = d ++ JCall t :: o /\ ~ In (JCall t) d /\ forall m, In m g -> In m l \/ In (EEnd m) h
  | _ => True
  end.
Lemma pci_cons : forall g h t p x, x <> ICall t -> x <> JCall t -> pci g h t p -> pci g (x :: h) t p.
Proof.
  intros g h t p x N1 N2 H. destruct p; cbn in *; auto.
  - destruct H as (d & o & -> & H). exists (x :: d), o. split; [reflexivity|]. intros [K|K]; auto.
  - destruct H as [(d & o & -> & H & K) L]. split; [|auto]. exists (x :: d), o. split; [reflexivity|]. split; [intros [Z|Z]; auto|].
    intros m M. destruct (K m M); [auto|right; now right].
  - destruct H as (d & o & -> & H). exists (x :: d), o. split; [reflexivity|]. intros [K|K]; auto.
  - destruct H as (d & o & -> & H & K). exists (x :: d), o. split; [reflexivity|]. split; [intros [Z|Z]; auto|].
    intros m M. destruct (K m M); [auto|right; now right].
Qed.
Lemma pci_app : forall g h t p l, (forall x, In x l -> x <> ICall t /\ x <> JCall t) -> pci g h t p -> pci g (l ++ h) t p.
Proof.
  intros g h t p l. induction l as [|x l IH]; intros N H; [exact H|]. cbn [app]. apply pci_cons; [apply N; now left..|]. apply IH; [intros; apply N; now right|auto].
Qed.
Lemma pci_grp : forall g g' h t p, ~ holding p -> pci g h t p -> pci g' h t p.
Proof. intros g g' h t p N H. destruct p; cbn in *; tauto. Qed.

Record INV (s : st) : Prop := {
  i_rd : forall t, In t (rdrs s) <-> holding (pc s t);
  i_grp : forall m, In m (grp s) <-> In (ECreate m) (log s) /\ ~ In (ERemove m) (log s);
  i_rem : forall m, In (ERemove m) (log s) -> In (ECreate m) (log s);
  i_pc : forall t, pci (grp s) (log s) t (pc s t);
  i_xw : xw s = true -> exists u, in_writer (pc s u);
  i_well : wellh (log s) }.

(** A thread moves on; nothing is written. *)
Lemma INV_move : forall s t p rd' x' l,
  INV s -> (forall m, ~ In (ECreate m) l) -> (forall m, ~ In (ERemove m) l) -> (forall u x, In x l -> u <> t -> x <> ICall u /\ x <> JCall u) ->
  (forall u, In u rd' <-> if u =? t then holding p else In u (rdrs s)) -> (x' = true -> exists u, in_writer (upd (pc s) t p u)) ->
  pci (grp s) (l ++ log s) t p -> wellh (l ++ log s) -> INV (MkSt (grp s) rd' x' (upd (pc s) t p) (l ++ log s)).
Proof.
  intros s t p rd' x' l I C R O Hr Hx Hp W.
  assert (EC : forall m, In (ECreate m) (l ++ log s) <-> In (ECreate m) (log s)) by (intros m; rewrite in_app_iff; split; [intros [K|K]; [now apply C in K|auto]|auto]).
  assert (ER : forall m, In (ERemove m) (l ++ log s) <-> In (ERemove m) (log s)) by (intros m; rewrite in_app_iff; split; [intros [K|K]; [now apply R in K|auto]|auto]).
  constructor; cbn [grp rdrs xw pc log].
  - intros u. rewrite Hr. destruct (u =? t) eqn:E; [apply Nat.eqb_eq in E; subst u; now rewrite upd_eq|]. apply Nat.eqb_neq in E. rewrite upd_ne by auto. apply (i_rd _ I).
  - intros m. rewrite EC, ER. apply (i_grp _ I).
  - intros m. rewrite EC, ER. apply (i_rem _ I).
  - intros u. destruct (Nat.eq_dec u t) as [->|N]; [now rewrite upd_eq|]. rewrite upd_ne by auto. apply pci_app; [intros x Hx'; now apply O|apply (i_pc _ I)].
  - exact Hx.
  - exact W.
Qed.
Lemma keep_writer : forall s t p, INV s -> ~ in_writer (pc s t) -> xw s = true -> exists u, in_writer (upd (pc s) t p u).
Proof.
  intros s t p I N X. destruct (i_xw _ I X) as (u & U). exists u. rewrite upd_ne; [auto|]. intros ->. contradiction.
Qed.
Lemma rd_same : forall s t p, INV s -> (holding p <-> holding (pc s t)) -> forall u, In u (rdrs s) <-> if u =? t then holding p else In u (rdrs s).
Proof. intros s t p I H u. destruct (u =? t) eqn:E; [|tauto]. apply Nat.eqb_eq in E. subst u. rewrite H. apply (i_rd _ I). Qed.
Lemma rd_enter : forall s t p, holding p -> forall u, In u (t :: rdrs s) <-> if u =? t then holding p else In u (rdrs s).
Proof. intros s t p H u. destruct (u =? t) eqn:E; [apply Nat.eqb_eq in E; subst; cbn; tauto|]. apply Nat.eqb_neq in E. cbn. split; [intros [K|K]; [congruence|auto]|auto]. Qed.
Lemma rd_leave : forall s t p, ~ holding p -> forall u, In u (leave t (rdrs s)) <-> if u =? t then holding p else In u (rdrs s).
Proof.
  intros s t p H u. unfold leave. rewrite filter_ne. destruct (u =? t) eqn:E; [apply Nat.eqb_eq in E; subst; tauto|]. apply Nat.eqb_neq in E. tauto.
Qed.
Lemma flag_ok : forall l x, flag_after l x = true -> x = true.
Proof. intros [|] x H; [discriminate|exact H]. Qed.

Lemma INV_call : forall s s', INV s -> call s s' -> INV s'.
Proof.
  intros s s' I H. destruct H.
  - apply INV_move with (l := [ICall t]); auto.
    + now intros m [K|[]].
    + now intros m [K|[]].
    + intros u x [<-|[]] N. split; [congruence|discriminate].
    + apply rd_same; auto. rewrite H. reflexivity.
    + apply keep_writer; auto. now rewrite H.
    + exists [], (log s). split; [reflexivity|intros []].
    + split; [exact Logic.I|apply (i_well _ I)].
  - apply INV_move with (l := [JCall t]); auto.
    + now intros m [K|[]].
    + now intros m [K|[]].
    + intros u x [<-|[]] N. split; [discriminate|congruence].
    + apply rd_same; auto. rewrite H. reflexivity.
    + apply keep_writer; auto. now rewrite H.
    + exists [], (log s). split; [reflexivity|intros []].
    + split; [exact Logic.I|apply (i_well _ I)].
  - apply INV_move with (l := []); [exact I|intros ? []|intros ? []|intros ? ? []|..].
    + apply rd_same; auto. rewrite H. reflexivity.
    + intros _. exists t. rewrite upd_eq. exact Logic.I.
    + exact Logic.I.
    + apply (i_well _ I).
Qed.
Lemma INV_go : forall pt s s', INV s -> go pt s s' -> INV s'.
Proof.
  intros pt s s' I H. destruct H; pose proof (i_pc _ I) as HP.
  - specialize (HP t). rewrite H in HP. destruct HP as (d & o & E & N). apply INV_move with (l := []); [exact I|intros ? []|intros ? []|intros ? ? []|..].
    + apply rd_enter. exact Logic.I.
    + apply keep_writer; auto. now rewrite H.
    + split; [|auto]. exists d, o. split; [exact E|]. auto.
    + apply (i_well _ I).
  - specialize (HP t). rewrite H in HP. destruct HP as [(d & o & E & N & K) L].
    assert (G : In m (grp s)) by (apply L; now left). apply (i_grp _ I) in G. apply INV_move with (l := [IReq t m]); auto.
    + now intros m' [Z|[]].
    + now intros m' [Z|[]].
    + intros u x [<-|[]] _. split; discriminate.
    + apply rd_same; auto. rewrite H. reflexivity.
    + apply keep_writer; auto. now rewrite H.
    + split; [|intros; apply L; now right]. exists (IReq t m :: d), o. split; [cbn; now rewrite E|]. split; [intros [Z|Z]; [discriminate|auto]|].
      intros m' M. destruct (K m' M) as [[ <- |Z]|Z]; [right; now left|auto|right; now right].
    + split; [exact G|apply (i_well _ I)].
  - specialize (HP t). rewrite H in HP. destruct HP as [(d & o & E & N & K) L]. apply INV_move with (l := [IRet t]); auto.
    + now intros m' [Z|[]].
    + now intros m' [Z|[]].
    + intros u x [<-|[]] _. split; discriminate.
    + apply rd_leave. auto.
    + intros X. apply flag_ok in X. apply keep_writer; auto. now rewrite H.
    + exact Logic.I.
    + split; [|apply (i_well _ I)]. exists d, o. split; [exact E|]. split; [exact N|]. intros m C R. destruct (K m) as [[]|Z]; [|exact Z].
      apply (i_grp _ I). split; [|exact R]. rewrite E. apply in_or_app. right. now right.
  - specialize (HP t). rewrite H in HP. destruct HP as (d & o & E & N). apply INV_move with (l := []); [exact I|intros ? []|intros ? []|intros ? ? []|..].
    + apply rd_enter. exact Logic.I.
    + apply keep_writer; auto. now rewrite H.
    + exists d, o. split; [exact E|]. auto.
    + apply (i_well _ I).
  - specialize (HP t). rewrite H in HP. destruct HP as (d & o & E & N & K). apply INV_move with (l := []); [exact I|intros ? []|intros ? []|intros ? ? []|..].
    + apply rd_same; auto. rewrite H. reflexivity.
    + apply keep_writer; auto. now rewrite H.
    + exists d, o. split; [exact E|]. split; [exact N|]. intros m' M. destruct (K m' M) as [[ <- |Z]|Z]; auto.
    + apply (i_well _ I).
  - specialize (HP t). rewrite H in HP. destruct HP as (d & o & E & N & K). apply INV_move with (l := [JRet t]); auto.
    + now intros m' [Z|[]].
    + now intros m' [Z|[]].
    + intros u x [<-|[]] _. split; discriminate.
    + apply rd_leave. auto.
    + intros X. apply flag_ok in X. apply keep_writer; auto. now rewrite H.
    + exact Logic.I.
    + split; [|apply (i_well _ I)]. exists d, o. split; [exact E|]. split; [exact N|]. intros m C R. destruct (K m) as [[]|Z]; [|exact Z].
      apply (i_grp _ I). split; [|exact R]. rewrite E. apply in_or_app. right. now right.
  - (* an exclusive section *)
    assert (NH : forall u, ~ holding (upd (pc s) t PIdle u)).
    { intros u K. destruct (Nat.eq_dec u t) as [->|N]; [now rewrite upd_eq in K|]. rewrite upd_ne in K by auto. apply (i_rd _ I) in K. now rewrite H0 in K. }
    assert (NN : forall x, In x (note w (grp s)) -> forall u, x <> ICall u /\ x <> JCall u).
    { intros x K u. unfold note in K. destruct w as [m|m]; [|destruct (is_in m (grp s))]; cbn in K; try easy; destruct K as [<-|[]]; split; discriminate. }
    constructor; cbn [grp rdrs xw pc log].
    + intros u. split; [intros []|apply NH].
    + intros m. destruct w as [m'|m']; cbn [write note].
      * rewrite !in_app_iff. cbn. rewrite (i_grp _ I). pose proof (i_rem _ I m) as Rm. specialize (H1 m' eq_refl).
        split.
        -- intros [[A B]|[->|[]]]; (split; [auto|]); intros [[C|[]]|C]; try discriminate; auto.
        -- intros [[[C|[]]|C] D]; [injection C as ->; auto|left; split; auto].
      * unfold drop. rewrite filter_ne. destruct (is_in m' (grp s)) eqn:E; cbn.
        -- rewrite (i_grp _ I). split; [intros [[A B] C]; split; [auto|intros [D|D]; [congruence|auto]]|intros [[A|A] B]; [discriminate|]; split; [split; auto|intros ->; apply B; auto]].
        -- rewrite (i_grp _ I). split; [tauto|]. intros K. split; [auto|]. intros ->. apply (i_grp _ I) in K. apply is_in_ok in K. congruence.
    + intros m K. destruct w as [m'|m']; cbn [note] in *.
      * cbn in *. destruct K as [K|K]; [discriminate|]. right. now apply (i_rem _ I).
      * destruct (is_in m' (grp s)) eqn:E; cbn in *; [|now apply (i_rem _ I)]. right. destruct K as [K|K]; [|now apply (i_rem _ I)].
        injection K as ->. apply is_in_ok in E. apply (i_grp _ I) in E. tauto.
    + intros u. apply pci_app; [intros x K; now apply NN|]. destruct (Nat.eq_dec u t) as [->|N]; [now rewrite upd_eq|]. rewrite upd_ne by auto.
      apply pci_grp with (g := grp s); [|auto]. specialize (NH u). now rewrite upd_ne in NH by auto.
    + discriminate.
    + destruct w as [m'|m']; cbn [note]; [split; [exact Logic.I|apply (i_well _ I)]|]. destruct (is_in m' (grp s)); [split; [exact Logic.I|apply (i_well _ I)]|apply (i_well _ I)].
  - (* a member ends *)
    constructor; cbn [grp rdrs xw pc log].
    + apply (i_rd _ I).
    + intros m'. rewrite (i_grp _ I). cbn. split; [intros [A B]; split; [auto|intros [C|C]; [discriminate|auto]]|intros [[A|A] B]; [discriminate|split; auto]].
    + intros m' [K|K]; [discriminate|]. right. now apply (i_rem _ I).
    + intros u. apply pci_cons; [discriminate..|apply HP].
    + apply (i_xw _ I).
    + split; [exact Logic.I|apply (i_well _ I)].
Qed.
Theorem INV_reach : forall pt s, reach pt s -> INV s.
Proof.
  intros pt s R. induction R; [|eapply INV_call; eauto|eapply INV_go; eauto].
  constructor; cbn; try tauto; discriminate.
Qed.
Lemma wellh_app : forall l h, wellh (l ++ h) -> wellh h.
Proof. induction l as [|x l IH]; intros h W; auto. apply IH. now destruct W. Qed.
Theorem all_interrupted : forall pt s, reach pt s -> interrupts_all (log s).
Proof. intros pt s R l t bf E. pose proof (i_well _ (INV_reach _ _ R)) as W. rewrite E in W. apply wellh_app in W. now destruct W. Qed.
Theorem members_only : forall pt s, reach pt s -> interrupts_members (log s).
Proof. intros pt s R l t m bf E. pose proof (i_well _ (INV_reach _ _ R)) as W. rewrite E in W. apply wellh_app in W. now destruct W. Qed.
Theorem all_joined : forall pt s, reach pt s -> joins_all (log s).
Proof. intros pt s R l t bf E. pose proof (i_well _ (INV_reach _ _ R)) as W. rewrite E in W. apply wellh_app in W. now destruct W. Qed.
Theorem goes_on : forall pt s t, reach pt s -> (forall u, ~ in_writer (pc s u)) -> in_interrupt_all (pc s t) -> can_go pt s t.
Proof.
  intros pt s t R N H. pose proof (INV_reach _ _ R) as I. destruct (pc s t) as [| | |[|m l]| |] eqn:E; try easy.
  - exists (MkSt (grp s) (t :: rdrs s) (xw s) (upd (pc s) t (PInt (grp s))) (log s)). split.
    + apply g_int; [auto|]. unfold can_lock_shared. destruct (xw s) eqn:X; auto. destruct (i_xw _ I X) as (u & U). destruct (N u U).
    + cbn. rewrite upd_eq, E. discriminate.
  - eexists. split; [apply g_iret; eauto|]. cbn. rewrite upd_eq, E. discriminate.
  - eexists. split; [apply g_req; eauto|]. cbn. rewrite upd_eq, E. intros K. injection K as K. now apply (f_equal (@length nat)) in K; cbn in K; lia.
Qed.
