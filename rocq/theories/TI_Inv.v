From Verif Require Export TI_Model.
Set Implicit Arguments.

Lemma upd_eq A (f : nat -> A) t x : upd f t x t = x. Proof. unfold upd. now rewrite Nat.eqb_refl. Qed.
Lemma upd_neq A (f : nat -> A) t x u : u <> t -> upd f t x u = f u. Proof. intros H. unfold upd. apply Nat.eqb_neq in H. now rewrite H. Qed.

(** What refers to threads refers to threads that exist. *)
Definition exist_inv (s : st) : Prop :=
  (forall t, running s t = true -> t < cnt s) /\ (forall o t, objs s o = Some t -> t < cnt s) /\
  (forall u c, pcs s u = Some c -> c_thread c < cnt s) /\ (forall v t, In (v, Some t) (kept s) -> t < cnt s).
Ltac upds := repeat match goal with
  | |- context [upd _ ?a _ ?b] => unfold upd at 1; destruct (Nat.eqb_spec b a); try subst
  | H : context [upd _ ?a _ ?b] |- _ => unfold upd at 1 in H; destruct (Nat.eqb_spec b a); try subst
  end.
Lemma exist_ok basic s : reach basic s -> exist_inv s.
Proof.
  induction 1 as [|s s' Hr IH Hs].
  - repeat split; cbn; try discriminate; [|contradiction]. intros t H. apply Nat.eqb_eq in H. lia.
  - destruct IH as (A & B & C & D).
    inversion Hs; subst; unfold exist_inv; cbn; repeat split; eauto; intros; upds; eauto; try lia; try congruence.
    all: try match goal with H : Some _ = Some _ |- _ => injection H as <-; cbn; eauto end.
    all: try match goal with H : _ \/ _ |- _ => destruct H as [H|H]; [try injection H as _ ?; subst|]; eauto; try congruence end.
    all: try match goal with H : _ |- _ < S _ => first [apply A in H|apply B in H|apply C in H|apply D in H]; cbn in H; lia end.
    all: try match goal with H : pcs _ _ = Some _ |- _ => apply C in H; exact H end.
    + apply (D v t). match goal with E : kept s = _ |- _ => rewrite E end. apply in_app_iff in H0 as [X|X]; apply in_app_iff; [left|right; right]; exact X.
    + destruct (objs s o) as [t'|] eqn:E; [|discriminate]. destruct (t' =? t); [discriminate|]. match goal with X : Some _ = Some _ |- _ => injection X as <- end. eauto.
Qed.

(** One step: threads keep their handles and addresses; one thread at most appears. *)
Lemma step_old basic s s' : step basic s s' -> cnt s <= cnt s' /\ forall t, t < cnt s -> handle s' t = handle s t /\ addr s' t = addr s t.
Proof. intros Hs. inversion Hs; subst; cbn; split; try lia; intros t' Ht; rewrite ?upd_neq by lia; auto. Qed.
Lemma id_old basic s s' w : step basic s s' -> (forall t, w = Some t -> t < cnt s) -> id_of basic s' w = id_of basic s w.
Proof.
  intros Hs Hw. destruct w as [t|]; [|reflexivity]. destruct (step_old Hs) as [_ H]. destruct (H t (Hw _ eq_refl)) as [A B]. cbn. unfold value. destruct basic; auto.
Qed.
Lemma use_step basic s s' t : step basic s s' -> in_use s' t -> in_use s t \/ t = cnt s /\ handle s' t <> 0 /\ forall u, in_use s u -> handle s u <> handle s' t.
Proof.
  intros Hs. unfold in_use. inversion Hs; subst; cbn; auto; unfold upd.
  1-2: destruct (Nat.eqb_spec t (cnt s)) as [->|Hne]; [right; repeat split; auto|intros [A B]; left; split; [lia|auto]].
  all: intros [A B]; left; split; auto; destruct B as [B|B]; auto;
    match goal with H : context [?a =? ?b] |- _ => destruct (Nat.eqb_spec a b); subst; try discriminate; auto end.
Qed.
Ltac quick := match goal with B : _ |- _ => first [left; exact B|right; left; eexists; exact B|right; right; left; do 2 eexists; split; [exact B|reflexivity]|right; right; right; eexists; exact B] end.
Lemma ref_step basic s s' t : reach basic s -> step basic s s' -> referenced s' t ->
  referenced s t \/ t = cnt s /\ addr s' t <> 0 /\ forall u, referenced s u -> addr s u <> addr s' t.
Proof.
  intros Hr Hs. destruct (exist_ok Hr) as (EA & EB & EC & ED). unfold referenced at 1.
  assert (G : forall t, running s t = true \/ (exists o, objs s o = Some t) \/ (exists u c, pcs s u = Some c /\ c_thread c = t) \/ (exists v, In (v, Some t) (kept s)) -> referenced s t).
  { intros x H. split; [|exact H]. destruct H as [H|[[o H]|[(u & c & H & <-)|[v H]]]]; eauto. }
  inversion Hs; subst; cbn; intros (A & [B|[[o9 B]|[(u9 & c9 & B & <-)|[v9 B]]]]);
    try (left; apply G; quick; fail);
    try (destruct (Nat.eq_dec t (cnt s)) as [->|Hne]; [right; unfold upd; rewrite Nat.eqb_refl; repeat split; auto|rewrite ?upd_neq in B by auto; left; apply G; quick]; fail).
  - unfold upd in B |- *. destruct (Nat.eqb_spec o9 o) as [Ho|Ho]; [subst o9|].
    + injection B as <-. rewrite Nat.eqb_refl. right; auto.
    + left; apply G; eauto.
  - left. apply G. left. unfold upd in B. destruct (t =? t0); [discriminate|exact B].
  - left. apply G. right; left. exists o9. unfold upd in B. destruct (o9 =? o); [discriminate|exact B].
  - left. apply G. right; left. unfold upd in B. destruct (o9 =? o); [discriminate|]. destruct (o9 =? o'); [exists o|exists o9]; exact B.
  - left. apply G. destruct B as [B|B]; [injection B as _ B; eauto|eauto 6].
  - left. apply G. destruct B as [B|B]; [injection B as _ <-; eauto|eauto 6].
  - left. apply G. destruct B as [->|B]; eauto 6.
  - left. apply G. right; right; right. exists v9. match goal with E : kept s = _ |- _ => rewrite E end. apply in_app_iff in B as [X|X]; apply in_app_iff; [left|right; right]; exact X.
  - left. apply G. unfold upd in B. destruct (u9 =? u); [injection B as <-; cbn; eauto|eauto 7].
  - left. apply G. unfold upd in B. destruct (u9 =? u); [injection B as <-; cbn; eauto 8|eauto 7].
  - left. apply G. right; left. unfold upd in B. destruct (o9 =? o); [|eauto]. destruct (objs s o) as [t'|] eqn:E; [|discriminate]. destruct (t' =? t0); [discriminate|]. exists o. congruence.
  - left. apply G. unfold upd in B. destruct (u9 =? u); [discriminate|eauto 7].
Qed.

Lemma use_uniq basic s : reach basic s -> forall t u, in_use s t -> in_use s u -> handle s t = handle s u -> t = u.
Proof.
  induction 1 as [|s s' Hr IH Hs]; [intros t u [Ht _] [Hu _]; cbn in *; lia|]. intros t u Ht Hu E.
  destruct (step_old Hs) as [_ HO].
  destruct (use_step Hs Ht) as [A|(-> & A & A')], (use_step Hs Hu) as [B|(-> & B & B')]; auto.
  - apply IH; auto. destruct (HO t) as [X _]; [apply A|]. destruct (HO u) as [Y _]; [apply B|]. congruence.
  - exfalso. apply (B' t A). destruct (HO t) as [X _]; [apply A|]. congruence.
  - exfalso. apply (A' u B). destruct (HO u) as [X _]; [apply B|]. congruence.
Qed.
Lemma ref_uniq basic s : reach basic s -> forall t u, referenced s t -> referenced s u -> addr s t = addr s u -> t = u.
Proof.
  induction 1 as [|s s' Hr IH Hs]; [intros t u [Ht _] [Hu _]; cbn in *; lia|]. intros t u Ht Hu E.
  destruct (step_old Hs) as [_ HO].
  destruct (ref_step Hr Hs Ht) as [A|(-> & A & A')], (ref_step Hr Hs Hu) as [B|(-> & B & B')]; auto.
  - apply IH; auto. destruct (HO t) as [_ X]; [apply A|]. destruct (HO u) as [_ Y]; [apply B|]. congruence.
  - exfalso. apply (B' t A). destruct (HO t) as [_ X]; [apply A|]. congruence.
  - exfalso. apply (A' u B). destruct (HO u) as [_ X]; [apply B|]. congruence.
Qed.
Lemma nonzero basic s : reach basic s -> forall t, t < cnt s -> handle s t <> 0 /\ addr s t <> 0.
Proof.
  induction 1 as [|s s' Hr IH Hs]; [intros t Ht; cbn in *; destruct t; [split; discriminate|lia]|]. intros t.
  inversion Hs; subst; cbn; auto; unfold upd; intros Ht; destruct (Nat.eqb_spec t (cnt s)); auto; apply IH; lia.
Qed.
Lemma kept_ok basic s : reach basic s -> forall v w, In (v, w) (kept s) -> v = id_of basic s w.
Proof.
  induction 1 as [|s s' Hr IH Hs]; [intros v w []|]. intros v w Hin. pose proof (exist_ok Hr) as (EA & EB & EC & ED).
  assert (G : In (v, w) (kept s) -> v = id_of basic s' w).
  { intros H. rewrite (id_old Hs); auto. intros t ->. eauto. }
  inversion Hs; subst; cbn in Hin; auto.
  - destruct Hin as [X|X]; auto. injection X as <- <-. reflexivity.
  - destruct Hin as [X|X]; auto. injection X as <- <-. reflexivity.
  - destruct Hin as [->|X]; auto.
  - apply G. match goal with E : kept s = _ |- _ => rewrite E end. apply in_app_iff in Hin as [X|X]; apply in_app_iff; [left|right; right]; exact X.
Qed.
Lemma id_none basic s w : reach basic s -> (forall t, w = Some t -> t < cnt s) -> (id_of basic s w = 0 <-> w = None).
Proof.
  intros Hr Hw. destruct w as [t|]; cbn; [|tauto]. split; [|discriminate]. intros E. exfalso.
  destruct (nonzero Hr (Hw _ eq_refl)). unfold value in E. destruct basic; auto.
Qed.

(** ** join *)
Lemma pcs_dead basic s : reach basic s -> forall u o t, pcs s u = Some (MkC o t true) -> In (EReaped u t) (hist s).
Proof.
  induction 1 as [|s s' Hr IH Hs]; [intros u o t; cbn; discriminate|]. intros x o9 t9.
  inversion Hs; subst; cbn; eauto; unfold upd; try (destruct (Nat.eqb_spec x u) as [->|]); try discriminate; eauto.
  intros [= <- <-]. auto.
Qed.
(** Objects: one per thread at most, of threads the library has started, that have been reaped only by a join. *)
Definition obj_inv (s : st) : Prop :=
  (forall o t, objs s o = Some t -> native s t = false) /\
  (forall o o' t, objs s o = Some t -> objs s o' = Some t -> o = o') /\
  (forall o t, objs s o = Some t -> reaped s t = true -> exists u, In (EReaped u t) (hist s)).
Lemma obj_ok basic s : reach basic s -> obj_inv s.
Proof.
  induction 1 as [|s s' Hr IH Hs]; [repeat split; cbn; discriminate|]. destruct IH as (N & U & R). destruct (exist_ok Hr) as (EA & EB & EC & ED).
  inversion Hs; subst; unfold obj_inv; cbn; repeat split; auto.
  - intros x y. unfold upd. destruct (x =? o); [intros [= <-]; now rewrite Nat.eqb_refl|]. intros X. pose proof (EB _ _ X). destruct (Nat.eqb_spec y (cnt s)); [lia|eauto].
  - intros x y z. unfold upd. destruct (Nat.eqb_spec x o) as [Hx|Hx], (Nat.eqb_spec y o) as [Hy|Hy]; subst; eauto.
    + intros [= <-] X. pose proof (EB _ _ X). lia.
    + intros X [= <-]. pose proof (EB _ _ X). lia.
  - intros x y. unfold upd. destruct (x =? o); [intros [= <-]; rewrite Nat.eqb_refl; discriminate|]. intros X. pose proof (EB _ _ X). destruct (Nat.eqb_spec y (cnt s)); [lia|].
    intros Y. destruct (R _ _ X Y) as [v V]. eauto.
  - intros x y X. unfold upd. pose proof (EB _ _ X). destruct (Nat.eqb_spec y (cnt s)); [lia|eauto].
  - intros x y X. unfold upd. pose proof (EB _ _ X). destruct (Nat.eqb_spec y (cnt s)); [lia|]. intros Y. destruct (R _ _ X Y) as [v V]. eauto.
  - intros x y X. unfold upd. destruct (Nat.eqb_spec y t); [subst; pose proof (N _ _ X); congruence|eauto].
  - intros x y. unfold upd. destruct (x =? o); [discriminate|eauto].
  - intros x y z. unfold upd. destruct (x =? o), (y =? o); try discriminate; eauto.
  - intros x y. unfold upd. destruct (Nat.eqb_spec x o); [discriminate|]. intros X. destruct (Nat.eqb_spec y t); [|eauto]. subst y. exfalso. eauto.
  - intros x y. unfold upd. destruct (x =? o); [discriminate|]. destruct (x =? o'); eauto.
  - intros x y z. unfold upd. destruct (Nat.eqb_spec x o); [discriminate|]. destruct (Nat.eqb_spec y o); [discriminate|]. 
    destruct (Nat.eqb_spec x o'), (Nat.eqb_spec y o'); subst; eauto; intros X Y; exfalso; eauto.
  - intros x y. unfold upd. destruct (x =? o); [discriminate|]. destruct (x =? o'); eauto.
  - intros x y X Y. destruct (R _ _ X Y) as [v V]. eauto.
  - intros x y X Y. destruct (R _ _ X Y) as [v V]. eauto.
  - intros x y X Y. destruct (R _ _ X Y) as [v V]. eauto.
  - intros x y X. unfold upd. destruct (Nat.eqb_spec y t); [subst; eauto|]. intros Y. destruct (R _ _ X Y) as [v V]. eauto.
  - intros x y. unfold upd. destruct (x =? o); [|eauto]. destruct (objs s o) as [t'|] eqn:E; [|discriminate]. destruct (t' =? t); [discriminate|]. intros [= <-]. eauto.
  - intros x y z. unfold upd.
    assert (K : forall p, match objs s p with Some t' => if t' =? t then None else Some t' | None => None end = Some z -> objs s p = Some z).
    { intros p. destruct (objs s p) as [t'|]; [|discriminate]. destruct (t' =? t); congruence. }
    destruct (Nat.eqb_spec x o), (Nat.eqb_spec y o); subst; auto; intros X Y; eauto.
  - intros x y. unfold upd.
    destruct (x =? o).
    + destruct (objs s o) as [t'|] eqn:E; [|discriminate]. destruct (t' =? t); [discriminate|]. intros [= <-] Y. destruct (R _ _ E Y) as [v V]. eauto.
    + intros X Y. destruct (R _ _ X Y) as [v V]. eauto.
Qed.

Lemma deadlock_pointer s : reach false s -> forall u w, In (EDeadlock u w) (hist s) -> w = Some u.
Proof.
  induction 1 as [|s s' Hr IH Hs]; [intros u w []|]. intros x w. destruct (exist_ok Hr) as (EA & EB & EC & ED).
  inversion Hs; subst; cbn; eauto; intros [X|X]; try discriminate; eauto.
  injection X as <- <-. destruct (objs s o) as [t|] eqn:E.
  - f_equal. symmetry. apply (ref_uniq Hr); [split; eauto|split; [eauto|right; left; eauto]|assumption].
  - exfalso. match goal with H : value _ _ _ = _ |- _ => cbn in H; destruct (@nonzero _ s Hr u) as [_ Z]; eauto end.
Qed.
Lemma deadlock_basic s : reach true s -> forall u w, In (EDeadlock u w) (hist s) -> exists t, w = Some t /\ (t = u \/ exists v, In (EReaped v t) (hist s)).
Proof.
  induction 1 as [|s s' Hr IH Hs]; [intros u w []|]. intros x w. destruct (exist_ok Hr) as (EA & EB & EC & ED). destruct (obj_ok Hr) as (_ & _ & R).
  assert (G : forall e, In (EDeadlock x w) (hist s) -> exists t, w = Some t /\ (t = x \/ exists v, e = EReaped v t \/ In (EReaped v t) (hist s))).
  { intros e H. destruct (IH _ _ H) as (t & A & [B|[v B]]); exists t; eauto. }
  inversion Hs; subst; cbn; eauto; intros [X|X]; try discriminate; eauto.
  injection X as <- <-. destruct (objs s o) as [t|] eqn:E.
  - exists t. split; auto. destruct (running s t) eqn:Rt; [|destruct (reaped s t) eqn:Re].
    + left. symmetry. apply (use_uniq Hr); [split; eauto|split; eauto|assumption].
    + right. destruct (R _ _ E Re) as [v V]. eauto.
    + left. symmetry. apply (use_uniq Hr); [split; eauto|split; eauto|assumption].
  - exfalso. match goal with H : value _ _ _ = _ |- _ => cbn in H; destruct (@nonzero _ s Hr u) as [Z _]; eauto end.
Qed.
Lemma joins_other basic s : reach basic s -> forall u t, In (EJoins u t) (hist s) -> u <> t.
Proof.
  induction 1 as [|s s' Hr IH Hs]; [intros u t []|]. intros x y.
  inversion Hs; subst; cbn; eauto; intros [X|X]; try discriminate; eauto.
  injection X as <- <-. match goal with H : objs s o = _ |- _ => rewrite H in * end. cbn in *. congruence.
Qed.
Lemma invalid_none basic s : reach basic s -> forall u w, In (EInvalid u w) (hist s) -> w = None.
Proof.
  induction 1 as [|s s' Hr IH Hs]; [intros u t []|]. intros x y.
  inversion Hs; subst; cbn; eauto; intros [X|X]; try discriminate; eauto. injection X as <- <-. assumption.
Qed.
