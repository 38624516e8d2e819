(** * What moving and swapping thread objects do (lemmas for TH_Props) *)
From Verif Require Import TH_Spec TH_Proofs TH_Tree TH_More.
Set Implicit Arguments.

Lemma step_nth v3 s t ch s' x : step v3 s t ch = Some s' -> nth_error (ths s) t = Some x ->
  exists e, lstep v3 (length (ths s)) (has_ended s) (box s) t x ch = Some e /\ s' = apply s t e /\ forall y, nth_error (ths s') t = Some y -> loc y = loc (ex e).
Proof.
  intros Hs Hx. apply step_inv in Hs as (_ & x' & e & Hx' & _ & Hl & ->). rewrite Hx in Hx'. injection Hx' as <-. exists e. split; [exact Hl|]. split; [reflexivity|].
  intros y Hy. apply apply_nth in Hy as (y0 & (-> & _) & Hy). destruct Hy as [(_ & _ & ->)|[(Hn & _)|(Hn & _)]]; [reflexivity|congruence|].
  exfalso. assert (t < length (ths s)) by (apply nth_error_Some; congruence). lia.
Qed.
Lemma hof_upd_same l i k k0 h h0 : nth_error l i = Some (OThr k0 h0) -> hof (upd l i (OThr k h)) i = h.
Proof. intros E. unfold hof. now rewrite (upd_same _ _ _ E). Qed.
Lemma hof_upd_other l i o m : m <> i -> hof (upd l i o) m = hof l m.
Proof. intros Hn. unfold hof. now rewrite upd_other by exact Hn. Qed.
Lemma hof_seth_same l i k h h0 : nth_error l i = Some (OThr k h0) -> hof (seth l i h) i = h.
Proof. intros E. unfold seth. rewrite E. exact (hof_upd_same _ _ _ _ E). Qed.
Lemma hof_seth_other l i h m : m <> i -> hof (seth l i h) m = hof l m.
Proof. intros Hn. unfold seth. destruct (nth_error l i) as [[]|]; auto. now apply hof_upd_other. Qed.
Lemma hof_app1 l l' m : m < length l -> hof (l ++ l') m = hof l m.
Proof. intros H. unfold hof. now rewrite nth_error_app1. Qed.
Lemma hof_last l k h : hof (l ++ [OThr k h]) (length l) = h.
Proof. unfold hof. rewrite nth_error_app2 by lia. now rewrite Nat.sub_diag. Qed.
Lemma kind_eqb_refl k : kind_eqb k k = true.
Proof. destruct k as [|[]]; reflexivity. Qed.
Lemma take_all_spec args : forall l l' os, take_all l args = (l', os) -> NoDup args -> (forall i, In i args -> exists k h, nth_error l i = Some (OThr k h)) ->
  (forall p i, nth_error args p = Some i -> hof os p = hof l i) /\ (forall m, In m args -> hof l' m = None) /\ (forall m, ~ In m args -> hof l' m = hof l m).
Proof.
  induction args as [|i args IH]; cbn; intros l l' os H HN HA; [injection H as <- <-; split; [intros [|]; discriminate|split; [contradiction|auto]]|].
  apply NoDup_cons_iff in HN as (Hi & HN). destruct (HA i (or_introl eq_refl)) as (k & h & E). rewrite E in H.
  destruct (take_all (upd l i (OThr k None)) args) as [l1 os1] eqn:E1. injection H as <- <-.
  assert (HA'' : forall m, In m args -> exists k' h', nth_error (upd l i (OThr k None)) m = Some (OThr k' h')).
  { intros m Hm. destruct (HA m (or_intror Hm)) as (k1 & h1 & Em). assert (m <> i) by (intros ->; contradiction). exists k1, h1. now rewrite upd_other. }
  destruct (IH _ _ _ E1 HN HA'') as (H1 & H2 & H3). split; [|split].
  - intros [|p] m Hm; cbn in Hm; [injection Hm as <-; unfold hof; cbn; now rewrite E|]. change (hof (OThr k h :: os1) (S p)) with (hof os1 p). rewrite (H1 _ _ Hm).
    apply hof_upd_other. intros ->. apply Hi. exact (nth_error_In _ _ Hm).
  - intros m [ <- |Hm]; [|auto]. destruct (in_dec Nat.eq_dec i args) as [Hd|Hd]; [contradiction|]. rewrite (H3 _ Hd). exact (hof_upd_same _ _ _ _ E).
  - intros m Hm. rewrite H3 by tauto. apply hof_upd_other. intros ->. tauto.
Qed.

Lemma move_new v3 s t ch s' x y k i k' h r : step v3 s t ch = Some s' -> nth_error (ths s) t = Some x -> nth_error (ths s') t = Some y ->
  cont x = Do (MoveNew k i) :: r -> nth_error (loc x) i = Some (OThr k' h) -> k' = KPlain \/ k' = k ->
  hof (loc y) i = None /\ hof (loc y) (length (loc x)) = h /\ forall m, m <> i -> m < length (loc x) -> hof (loc y) m = hof (loc x) m.
Proof.
  intros Hs Hx Hy Ec Ei Hk. destruct (step_nth _ _ _ _ Hs Hx) as (e & Hl & -> & Hloc). rewrite (Hloc _ Hy). unfold lstep, go in Hl. rewrite Ec, Ei in Hl.
  assert (Hb : kind_eqb k' KPlain || kind_eqb k' k = true) by (destruct Hk as [ -> | -> ]; rewrite kind_eqb_refl, ?orb_true_r; reflexivity).
  rewrite Hb in Hl. injection Hl as <-. cbn [ex loc]. assert (Hi : i < length (loc x)) by (apply nth_error_Some; congruence).
  repeat split.
  - rewrite hof_app1 by (rewrite upd_length; exact Hi). exact (hof_upd_same _ _ _ _ Ei).
  - pose proof (hof_last (upd (loc x) i (OThr k' None)) k h) as HL. rewrite upd_length in HL. exact HL.
  - intros m Hm Hl. rewrite hof_app1 by (rewrite upd_length; exact Hl). now apply hof_upd_other.
Qed.
Lemma swap_spec v3 s t ch s' x y k i j h h' r : step v3 s t ch = Some s' -> nth_error (ths s) t = Some x -> nth_error (ths s') t = Some y ->
  cont x = Do (Swap i j) :: r -> nth_error (loc x) i = Some (OThr k h) -> nth_error (loc x) j = Some (OThr k h') ->
  hof (loc y) i = h' /\ hof (loc y) j = h /\ forall m, m <> i -> m <> j -> hof (loc y) m = hof (loc x) m.
Proof.
  intros Hs Hx Hy Ec Ei Ej. destruct (step_nth _ _ _ _ Hs Hx) as (e & Hl & -> & Hloc). rewrite (Hloc _ Hy). unfold lstep, go in Hl. rewrite Ec, Ei, Ej, kind_eqb_refl in Hl.
  injection Hl as <-. cbn [ex loc]. destruct (@seth_nth (loc x) j i k h' h' Ej) as (h2 & E2). destruct (Nat.eq_dec i j) as [ <- |Hn].
  - rewrite Ei in Ej. injection Ej as <-. rewrite (hof_seth_same _ _ _ E2). repeat split. intros m Hm _. now rewrite !hof_seth_other.
  - repeat split.
    + rewrite hof_seth_other by exact Hn. exact (hof_seth_same _ _ _ Ei).
    + exact (hof_seth_same _ _ _ E2).
    + intros m Hi Hj. now rewrite !hof_seth_other.
Qed.
Lemma assign_spec v3 s t ch s' x y f k k' i j h h' hd r : step v3 s t ch = Some s' -> why s' = None -> nth_error (ths s) t = Some x -> nth_error (ths s') t = Some y ->
  cont x = AAssign f i j hd :: r -> i <> j -> nth_error (loc x) i = Some (OThr k h) -> nth_error (loc x) j = Some (OThr k' h') ->
  hof (loc y) i = h' /\ hof (loc y) j = None /\ forall m, m <> i -> m <> j -> hof (loc y) m = hof (loc x) m.
Proof.
  intros Hs Hw Hx Hy Ec Hn Ei Ej. destruct (step_nth _ _ _ _ Hs Hx) as (e & Hl & -> & Hloc). rewrite (Hloc _ Hy). clear Hloc Hy. unfold lstep, go, die in Hl. rewrite Ec, Ei, Ej in Hl.
  assert (HL : loc (ex e) = upd (seth (upd (loc x) i (OThr k None)) j None) i (OThr k (hof (upd (loc x) i (OThr k None)) j))).
  { destruct h as [m|]; [destruct v3|]; injection Hl as <-; [discriminate Hw|reflexivity|reflexivity]. }
  rewrite HL. assert (E1 : nth_error (upd (loc x) i (OThr k None)) i = Some (OThr k None)) by exact (upd_same _ _ _ Ei).
  assert (E2 : nth_error (upd (loc x) i (OThr k None)) j = Some (OThr k' h')) by (rewrite upd_other by congruence; exact Ej).
  destruct (@seth_nth _ i j k None _ E1) as (h1 & E3). repeat split.
  - rewrite (hof_upd_same _ _ _ _ E3). unfold hof. now rewrite E2.
  - rewrite hof_upd_other by congruence. exact (hof_seth_same _ _ _ E2).
  - intros m Hi Hj. rewrite hof_upd_other, hof_seth_other, hof_upd_other by assumption. reflexivity.
Qed.
Lemma new_spec v3 s t s' x y z k args b ct r : step v3 s t Go = Some s' -> nth_error (ths s) t = Some x -> nth_error (ths s') t = Some y -> nth_error (ths s') (length (ths s)) = Some z ->
  cont x = Do (New k args b ct) :: r -> NoDup args -> (forall i, In i args -> exists k h, nth_error (loc x) i = Some (OThr k h)) ->
  cont z = map Do b /\ (forall p i, nth_error args p = Some i -> hof (loc z) p = hof (loc x) i) /\ hof (loc y) (length (loc x)) = Some (length (ths s)) /\
  (forall m, m < length (loc x) -> hof (loc y) m = if in_dec Nat.eq_dec m args then None else hof (loc x) m).
Proof.
  intros Hs Hx Hy Hz Ec HN HA. destruct (step_nth _ _ _ _ Hs Hx) as (e & Hl & -> & Hloc). rewrite (Hloc _ Hy). clear Hloc Hy. unfold lstep, go in Hl. rewrite Ec in Hl.
  destruct (take_all (loc x) args) as [l' os] eqn:E. injection Hl as <-. apply apply_nth in Hz as (z0 & (-> & -> & _) & Hz). cbn [enew ex] in *.
  assert (Ht : t < length (ths s)) by (apply nth_error_Some; congruence).
  destruct Hz as [(Hc & _)|[(_ & Hc)|(_ & Hc)]]; [lia|exfalso; assert (length (ths s) < length (ths s)) by (apply nth_error_Some; congruence); lia|]. injection Hc as <-. cbn [loc cont].
  destruct (@take_all_spec args _ _ _ E HN HA) as (H1 & H2 & H3). destruct (@take_all_len args _ _ _ E) as (HL & _). repeat split; auto.
  - rewrite <- HL. apply hof_last.
  - intros m Hm. rewrite hof_app1 by lia. destruct (in_dec Nat.eq_dec m args); auto.
Qed.
