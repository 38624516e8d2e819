(** * Task regions: invariant and its consequences *)
From Verif Require Import TR_Model TR_Spec.
Set Implicit Arguments.

Lemma upd_length A (l : list A) i x : length (upd l i x) = length l.
Proof. revert i. induction l as [|y l IH]; intros [|i]; cbn; auto. Qed.
Lemma nth_upd A (l : list A) i j x : nth_error (upd l i x) j = if j =? i then match nth_error l j with Some _ => Some x | None => None end else nth_error l j.
Proof.
  revert i j. induction l as [|y l IH]; intros [|i] [|j]; cbn; auto.
  destruct (j =? i); reflexivity.
Qed.
Lemma nth_upd_same A (l : list A) i x y : nth_error l i = Some y -> nth_error (upd l i x) i = Some x.
Proof. intros H. rewrite nth_upd, Nat.eqb_refl, H. reflexivity. Qed.
Lemma nth_upd_other A (l : list A) i j x : j <> i -> nth_error (upd l i x) j = nth_error l j.
Proof. intros H. rewrite nth_upd. apply Nat.eqb_neq in H. now rewrite H. Qed.
Lemma nth_lt A (l : list A) i x : nth_error l i = Some x -> i < length l.
Proof. intros H. apply nth_error_Some. congruence. Qed.

Arguments nth_upd_same {A l i} x {y} _.
Arguments nth_lt {A l i x} _.

(** ** results *)
Lemma results_spec ts h g l : (forall i p x, nth_error ts i = Some (MkT p x) -> forall l, x = Ended l -> result i h = Some l) ->
  results ts g = Some l -> (forall c, In c g -> exists l', result c h = Some l') /\ l = flat_map (fun c => outcome c h) g.
Proof.
  intros H. revert l. induction g as [|c g IH]; cbn; intros l E; [injection E as <-; split; [intros ? []|reflexivity]|].
  destruct (results ts g) as [l0|] eqn:E0; [|unfold results in E0; rewrite E0 in E; discriminate]. unfold results in E0. rewrite E0 in E.
  destruct (nth_error ts c) as [[p x]|] eqn:Ec; [|discriminate]. destruct x; try discriminate. injection E as <-.
  specialize (H c p _ Ec l1 eq_refl). destruct (IH l0 eq_refl) as [IH1 ->].
  split; [intros c' [<-|Hc]; eauto|]. unfold outcome at 2. rewrite H. reflexivity.
Qed.
Lemma results_none ts g : results ts g = None -> exists c, In c g /\ forall p l, nth_error ts c <> Some (MkT p (Ended l)).
Proof.
  induction g as [|c g IH]; cbn; [discriminate|]. destruct (results ts g) as [l0|] eqn:E0; unfold results in E0; rewrite E0.
  - intros E. exists c. split; [now left|]. intros p l Hc. rewrite Hc in E. discriminate.
  - intros _. destruct (IH eq_refl) as (c' & H1 & H2). eauto.
Qed.

(** ** the invariant *)
Definition reg (i : nat) (h : list event) (b : list cmd) (R : region) : Prop :=
  entered i h = Some b /\ group R = children i h /\ incl (exs R) (raised i h) /\ incl (throws i h) (exs R) /\ (nowait b -> exs R = throws i h)
  /\ (forall c l, In c (group R) -> result c h = Some l -> l <> [] -> canceled R = true).
(** an outcome of the region of [i] *)
Definition right (i : nat) (h : list event) (l : list nat) : Prop :=
  forall b, entered i h = Some b -> (forall c, In c (children i h) -> result c h <> None) /\
    (forall n, In n l <-> In n (raised i h)) /\ (nowait b -> l = raised i h).
Definition local (i : nat) (x : status) (h : list event) : Prop :=
  match x with
  | Queued _ | Working _ => children i h = [] /\ throws i h = [] /\ entered i h = None /\ result i h = None
  | Body r R => result i h = None /\ throws i h = [] /\ exists b, reg i h b R /\ (nowait b -> nowait r)
  | Waiting r _ R => result i h = None /\ throws i h = [] /\ exists b, reg i h b R /\ ~ nowait b
  | Final R => result i h = None /\ exists b, reg i h b R
  | Failing l => result i h = None /\ l <> [] /\ right i h l /\ (entered i h = None -> children i h = [])
  | Ended l => result i h = Some l
  end.
Definition known (n : nat) (e : event) : Prop :=
  match e with Entered i _ => i < n | Spawned p c => p < c /\ c < n | Threw i _ => i < n | Returned i _ => i < n end.
(** the property of histories *)
Fixpoint good (h : list event) : Prop :=
  match h with
  | [] => True
  | e :: h' => good h' /\ match e with
      | Returned i l => result i h' = None /\ right i h' l
      | Spawned p c => result p h' = None /\ entered p h' <> None /\ (forall c' l, In c' (children p h') -> result c' h' = Some l -> l = [])
      | Threw i _ => result i h' = None
      | Entered i _ => result i h' = None
      end
  end.
Record inv (c : cfg) : Prop := MkInv {
  i_local : forall i p x, nth_error (tasks c) i = Some (MkT p x) -> local i x (hist c);
  i_known : Forall (known (length (tasks c))) (hist c);
  i_good : good (hist c);
  i_parent : forall i p x, nth_error (tasks c) i = Some (MkT p x) -> i <> 0 -> In i (children p (hist c)) /\ p < i;
  i_child : forall p k, In k (children p (hist c)) -> exists x, nth_error (tasks c) k = Some (MkT p x) /\ p < k
}.

(** ** events of others change nothing *)
Definition about (i : nat) (e : event) : bool :=
  match e with Entered j _ => j =? i | Spawned p _ => p =? i | Threw j _ => j =? i | Returned j _ => j =? i end.
Lemma unseen_children i e h : about i e = false -> children i (e :: h) = children i h.
Proof. destruct e; cbn; intros H; rewrite ?H; reflexivity. Qed.
Lemma unseen_throws i e h : about i e = false -> throws i (e :: h) = throws i h.
Proof. destruct e; cbn; intros H; rewrite ?H; reflexivity. Qed.
Lemma unseen_entered i e h : about i e = false -> entered i (e :: h) = entered i h.
Proof. destruct e; cbn; intros H; rewrite ?H; reflexivity. Qed.
Lemma unseen_result i e h : about i e = false -> result i (e :: h) = result i h.
Proof. destruct e; cbn; intros H; rewrite ?H; reflexivity. Qed.

Lemma known_bound n h : Forall (known n) h -> forall i, n <= i -> children i h = [] /\ throws i h = [] /\ entered i h = None /\ result i h = None.
Proof.
  intros H i Hi. induction H as [|e h He Hh IH]; [repeat split|]. destruct e; cbn in He |- *; destruct IH as (A & B & C & D).
  - destruct (Nat.eqb_spec i0 i); [lia|auto].
  - destruct (Nat.eqb_spec p i); [lia|auto].
  - destruct (Nat.eqb_spec i0 i); [lia|auto].
  - destruct (Nat.eqb_spec i0 i); [lia|auto].
Qed.
Lemma known_mono n m h : n <= m -> Forall (known n) h -> Forall (known m) h.
Proof. intros H. apply Forall_impl. intros []; cbn; lia. Qed.

(** raised grows *)
Lemma outcome_mono c e h n : (forall l, e = Returned c l -> result c h = None) -> In n (outcome c h) -> In n (outcome c (e :: h)).
Proof.
  unfold outcome. intros He Hn. destruct e; cbn [result]; auto. destruct (Nat.eqb_spec i c) as [->|]; [|exact Hn].
  rewrite (He l eq_refl) in Hn. destruct Hn.
Qed.
Lemma raised_mono i e h : (forall c l, e = Returned c l -> result c h = None) -> incl (raised i h) (raised i (e :: h)).
Proof.
  intros He n Hn. unfold raised in *. apply in_or_app. apply in_app_or in Hn as [Hn|Hn].
  - left. destruct e; cbn; auto. destruct (i0 =? i); [apply in_or_app; now left|exact Hn].
  - right. apply in_flat_map in Hn as (c & Hc & Hn). apply in_flat_map. exists c. split.
    + destruct e; cbn; auto. destruct (p =? i); [apply in_or_app; now left|exact Hc].
    + apply outcome_mono; [intros l E; exact (He c l E)|exact Hn].
Qed.

(** the local facts survive an event that is not about the task *)
Lemma reg_other i e h b R : about i e = false -> (forall c l, e = Returned c l -> result c h = None /\ (In c (children i h) -> l = [] \/ canceled R = true)) ->
  reg i h b R -> reg i (e :: h) b R.
Proof.
  intros Ha He (A & B & C & D & E & F). unfold reg. rewrite unseen_entered, unseen_children, unseen_throws by exact Ha.
  repeat split; auto.
  - intros n Hn. apply raised_mono; [|apply C, Hn]. intros c l ->. now apply (He c l).
  - intros c l Hc Hr Hl. destruct e; cbn [result] in Hr; eauto. destruct (Nat.eqb_spec i0 c) as [->|]; [|eauto].
    injection Hr as ->. destruct (He c l eq_refl) as [_ G]. rewrite B in Hc. destruct (G Hc) as [->|G']; congruence.
Qed.
Lemma outcome_same c e h : (forall l, e <> Returned c l) -> outcome c (e :: h) = outcome c h.
Proof. unfold outcome. intros H. destruct e; cbn [result]; auto. destruct (Nat.eqb_spec i c) as [->|]; [exfalso; eapply H; reflexivity|reflexivity]. Qed.
Lemma flat_map_ext_in A B (f g : A -> list B) l : (forall x, In x l -> f x = g x) -> flat_map f l = flat_map g l.
Proof. induction l as [|x l IH]; cbn; intros H; [reflexivity|]. rewrite H by now left. f_equal. apply IH. intros; apply H; now right. Qed.
Lemma raised_same i e h : about i e = false -> (forall c, In c (children i h) -> forall l, e <> Returned c l) -> raised i (e :: h) = raised i h.
Proof.
  intros Ha He. unfold raised. rewrite unseen_throws, unseen_children by exact Ha. f_equal. apply flat_map_ext_in. intros c Hc. apply outcome_same, He, Hc.
Qed.
Lemma right_other i e h l : about i e = false -> (forall c l, e = Returned c l -> result c h = None) -> right i h l -> right i (e :: h) l.
Proof.
  intros Ha He H b Hb. rewrite unseen_entered in Hb by exact Ha. destruct (H b Hb) as (A & B & C).
  assert (Hn : forall c, In c (children i h) -> forall l, e <> Returned c l).
  { intros c Hc l' ->. apply (A c Hc). exact (He c l' eq_refl). }
  rewrite unseen_children, raised_same by auto. split; [|auto].
  intros c Hc. destruct e; cbn [result]; auto. destruct (Nat.eqb_spec i0 c); [discriminate|auto].
Qed.
Lemma local_other i e h x : about i e = false -> (forall c l, e = Returned c l -> result c h = None /\
    (In c (children i h) -> l = [] \/ match x with Body _ R | Waiting _ _ R | Final R => canceled R = true | _ => True end)) ->
  local i x h -> local i x (e :: h).
Proof.
  intros Ha He H.
  assert (He' : forall c l, e = Returned c l -> result c h = None) by (intros c l E; apply (He c l E)).
  destruct x; cbn [local] in *; rewrite ?unseen_children, ?unseen_throws, ?unseen_entered, ?unseen_result by exact Ha; auto.
  - destruct H as (A & B & b & C & D). split; [exact A|]. split; [exact B|]. exists b. split; [|exact D]. apply reg_other; auto.
  - destruct H as (A & B & b & C & D). split; [exact A|]. split; [exact B|]. exists b. split; [|exact D]. apply reg_other; auto.
  - destruct H as (A & b & C). split; [exact A|]. exists b. apply reg_other; auto.
  - destruct H as (A & B & C & D). split; [exact A|]. split; [exact B|]. split; [|exact D]. apply right_other; auto.
Qed.

(** ** one step *)
Lemma inv_quiet c i p x x' : inv c -> nth_error (tasks c) i = Some (MkT p x) -> local i x' (hist c) ->
  inv (MkC (upd (tasks c) i (MkT p x')) (hist c)).
Proof.
  intros [A B C D E] Hi Hl. constructor; cbn [tasks hist]; rewrite ?upd_length; auto.
  - intros j q y Hj. destruct (Nat.eq_dec j i) as [->|Hn]; [rewrite (nth_upd_same _ Hi) in Hj; injection Hj as <- <-; exact Hl|].
    rewrite nth_upd_other in Hj by exact Hn. exact (A j q y Hj).
  - intros j q y Hj. destruct (Nat.eq_dec j i) as [->|Hn]; [rewrite (nth_upd_same _ Hi) in Hj; injection Hj as <- <-; exact (D i p x Hi)|].
    rewrite nth_upd_other in Hj by exact Hn. exact (D j q y Hj).
  - intros q k Hk. destruct (E q k Hk) as (y & Hy & Hlt). destruct (Nat.eq_dec k i) as [->|Hn].
    + exists x'. rewrite Hi in Hy. injection Hy as -> ->. split; [exact (nth_upd_same _ Hi)|exact Hlt].
    + exists y. rewrite nth_upd_other by exact Hn. auto.
Qed.

Lemma inv_own c i p x x' e : inv c -> nth_error (tasks c) i = Some (MkT p x) ->
  (match e with Threw j _ | Entered j _ => j = i | _ => False end) -> result i (hist c) = None -> local i x' (e :: hist c) ->
  inv (MkC (upd (tasks c) i (MkT p x')) (e :: hist c)).
Proof.
  intros [A B C D E] Hi He Hr Hl. assert (Hil := nth_lt Hi). constructor; cbn [tasks hist]; rewrite ?upd_length; auto.
  - intros j q y Hj. destruct (Nat.eq_dec j i) as [->|Hn]; [rewrite (nth_upd_same _ Hi) in Hj; injection Hj as <- <-; exact Hl|].
    rewrite nth_upd_other in Hj by exact Hn. apply local_other; [|intros; subst e; contradiction|exact (A j q y Hj)].
    destruct e; try contradiction; subst; cbn; apply Nat.eqb_neq; auto.
  - constructor; [destruct e; try contradiction; subst; exact Hil|exact B].
  - cbn. split; [exact C|]. destruct e; try contradiction; subst; exact Hr.
  - intros j q y Hj Hj0. assert (Ec : children q (e :: hist c) = children q (hist c)) by (destruct e; try contradiction; reflexivity). rewrite Ec.
    destruct (Nat.eq_dec j i) as [->|Hn]; [rewrite (nth_upd_same _ Hi) in Hj; injection Hj as <- <-; exact (D i p x Hi Hj0)|].
    rewrite nth_upd_other in Hj by exact Hn. exact (D j q y Hj Hj0).
  - intros q k. assert (Ec : children q (e :: hist c) = children q (hist c)) by (destruct e; try contradiction; reflexivity). rewrite Ec.
    intros Hk. destruct (E q k Hk) as (y & Hy & Hlt). destruct (Nat.eq_dec k i) as [->|Hn].
    + exists x'. rewrite Hi in Hy. injection Hy as -> ->. split; [exact (nth_upd_same _ Hi)|exact Hlt].
    + exists y. rewrite nth_upd_other by exact Hn. auto.
Qed.

Lemma inv_spawn c i p r k R : inv c -> nth_error (tasks c) i = Some (MkT p (Body (Run k :: r) R)) -> canceled R = false ->
  inv (MkC (upd (tasks c) i (MkT p (Body r (MkR (canceled R) (exs R) (group R ++ [length (tasks c)])))) ++ [MkT i (Queued k)])
           (Spawned i (length (tasks c)) :: hist c)).
Proof.
  intros [A B C D E] Hi HR. assert (Hil := nth_lt Hi). set (n := length (tasks c)) in *.
  assert (Hl : length (upd (tasks c) i (MkT p (Body r (MkR (canceled R) (exs R) (group R ++ [n]))))) = n) by apply upd_length.
  destruct (A i p _ Hi) as (L1 & L2 & b & (M1 & M2 & M3 & M4 & M5 & M6) & L4).
  destruct (known_bound B (le_n n)) as (K1 & K2 & K3 & K4).
  constructor; cbn [tasks hist].
  - intros j q y Hj. destruct (Nat.lt_ge_cases j n) as [Hlt|Hge].
    + rewrite nth_error_app1 in Hj by (rewrite Hl; exact Hlt). destruct (Nat.eq_dec j i) as [->|Hn].
      * rewrite (nth_upd_same _ Hi) in Hj. injection Hj as <- <-. cbn [local result throws]. split; [exact L1|]. split; [exact L2|]. exists b. split.
        -- unfold reg. cbn [entered children throws group exs canceled]. rewrite Nat.eqb_refl, M2. repeat split; auto.
           ++ intros x Hx. apply raised_mono; [discriminate|]. apply M3, Hx.
           ++ intros c0 l Hc Hr Hne. cbn [result] in Hr. apply in_app_or in Hc as [Hc|[<-|[]]]; [rewrite <- M2 in Hc; eauto|congruence].
        -- intros Hb. specialize (L4 Hb). now inversion L4.
      * rewrite nth_upd_other in Hj by exact Hn. apply local_other; [cbn; apply Nat.eqb_neq; auto|discriminate|exact (A j q y Hj)].
    + rewrite nth_error_app2 in Hj by (rewrite Hl; exact Hge). rewrite Hl in Hj. destruct (j - n) as [|z] eqn:Ez; cbn in Hj; [|destruct z; discriminate].
      injection Hj as <- <-. assert (j = n) as -> by lia. cbn. destruct (Nat.eqb_spec i n); [lia|auto].
  - rewrite app_length, Hl. cbn. constructor; [cbn; lia|]. apply (@known_mono n); [lia|exact B].
  - cbn. split; [exact C|]. split; [exact L1|]. split; [congruence|]. intros c' l Hc Hr. rewrite <- M2 in Hc. destruct l as [|z l]; [reflexivity|].
    rewrite (M6 c' (z :: l) Hc Hr) in HR; [discriminate|discriminate].
  - intros j q y Hj Hj0. destruct (Nat.lt_ge_cases j n) as [Hlt|Hge].
    + rewrite nth_error_app1 in Hj by (rewrite Hl; exact Hlt).
      assert (exists y', nth_error (tasks c) j = Some (MkT q y')) as [y' Hy'].
      { destruct (Nat.eq_dec j i) as [->|Hn]; [rewrite (nth_upd_same _ Hi) in Hj; injection Hj as <- <-; eauto|]. rewrite nth_upd_other in Hj by exact Hn. eauto. }
      destruct (D j q y' Hy' Hj0) as [H1 H2]. split; [|exact H2]. cbn. destruct (i =? q); [apply in_or_app; now left|exact H1].
    + rewrite nth_error_app2 in Hj by (rewrite Hl; exact Hge). rewrite Hl in Hj. destruct (j - n) as [|z] eqn:Ez; cbn in Hj; [|destruct z; discriminate].
      injection Hj as <- <-. assert (j = n) as -> by lia. cbn. rewrite Nat.eqb_refl. split; [apply in_or_app; right; now left|exact Hil].
  - intros q k0 Hk. cbn in Hk. assert (In k0 (children q (hist c)) \/ q = i /\ k0 = n) as [Hk'|[-> ->]].
    { destruct (Nat.eqb_spec i q) as [->|]; [|now left]. apply in_app_or in Hk as [Hk|[<-|[]]]; auto. }
    + destruct (E q k0 Hk') as (y & Hy & Hlt). assert (Hkl := nth_lt Hy). fold n in Hkl. destruct (Nat.eq_dec k0 i) as [->|Hn].
      * rewrite Hi in Hy. injection Hy as <- <-. eexists. rewrite nth_error_app1 by (rewrite Hl; exact Hkl). split; [exact (nth_upd_same _ Hi)|exact Hlt].
      * exists y. rewrite nth_error_app1 by (rewrite Hl; exact Hkl). rewrite nth_upd_other by exact Hn. auto.
    + eexists. rewrite nth_error_app2 by (rewrite Hl; apply le_n). rewrite Hl, Nat.sub_diag. split; [reflexivity|exact Hil].
Qed.

(** the task [i] ends; [f] changes the parent *)
Definition mark (l : list nat) (y : status) : status := match l with [] => y | _ => set_canceled y end.
Lemma inv_end c i p x l ts : inv c -> nth_error (tasks c) i = Some (MkT p x) -> result i (hist c) = None -> right i (hist c) l ->
  length ts = length (tasks c) -> nth_error ts i = Some (MkT p (Ended l)) ->
  (forall j q y, j <> i -> nth_error (tasks c) j = Some (MkT q y) -> nth_error ts j = Some (MkT q (if (j =? p) && negb (i =? 0) then mark l y else y))) ->
  inv (MkC ts (Returned i l :: hist c)).
Proof.
  intros [A B C D E] Hi Hr Hrt Hlen Hnew Hold. assert (Hil := nth_lt Hi).
  assert (Hsrc : forall j q y', j <> i -> nth_error ts j = Some (MkT q y') -> exists y, nth_error (tasks c) j = Some (MkT q y) /\ y' = if (j =? p) && negb (i =? 0) then mark l y else y).
  { intros j q y' Hn Hj. destruct (nth_error (tasks c) j) as [[q0 y]|] eqn:Ej.
    - rewrite (Hold j q0 y Hn Ej) in Hj. injection Hj as -> <-. eauto.
    - apply nth_error_None in Ej. apply nth_lt in Hj. lia. }
  constructor; cbn [tasks hist]; rewrite ?Hlen; auto.
  - intros j q y' Hj. destruct (Nat.eq_dec j i) as [->|Hn]; [rewrite Hnew in Hj; injection Hj as <- <-; cbn; now rewrite Nat.eqb_refl|].
    destruct (Hsrc j q y' Hn Hj) as (y & Hy & ->). assert (Hab : about j (Returned i l) = false) by (cbn; apply Nat.eqb_neq; auto).
    assert (Hyl := A j q y Hy).
    destruct (Nat.eqb_spec j p) as [->|Hjp]; cbn [andb]; [destruct (Nat.eqb_spec i 0) as [E0|E0]; cbn [negb]|].
    + apply local_other; [exact Hab| |exact Hyl]. intros c0 l0 [= <- <-]. split; [exact Hr|]. intros Hc. destruct (E p i Hc) as (_ & _ & Hx). lia.
    + apply local_other; [exact Hab| |].
      * intros c0 l0 [= <- <-]. split; [exact Hr|]. intros _. destruct l as [|z l]; [now left|right]. cbn [mark]. destruct y; cbn; auto.
      * destruct l as [|z l]; [exact Hyl|]. cbn [mark]. destruct y; cbn [set_canceled local] in *; auto.
        -- destruct Hyl as (L1 & L2 & b & (M1 & M2 & M3 & M4 & M5 & M6) & L4). split; [exact L1|]. split; [exact L2|]. exists b. split; [repeat split; auto|exact L4].
        -- destruct Hyl as (L1 & L2 & b & (M1 & M2 & M3 & M4 & M5 & M6) & L4). split; [exact L1|]. split; [exact L2|]. exists b. split; [repeat split; auto|exact L4].
        -- destruct Hyl as (L1 & b & (M1 & M2 & M3 & M4 & M5 & M6)). split; [exact L1|]. exists b. repeat split; auto.
    + apply local_other; [exact Hab| |exact Hyl]. intros c0 l0 [= <- <-]. split; [exact Hr|]. intros Hc. destruct (E j i Hc) as (z & Hz & _). rewrite Hi in Hz. congruence.
  - cbn. auto.
  - intros j q y' Hj Hj0. cbn [children]. destruct (Nat.eq_dec j i) as [->|Hn]; [rewrite Hnew in Hj; injection Hj as <- <-; exact (D i p x Hi Hj0)|].
    destruct (Hsrc j q y' Hn Hj) as (y & Hy & _). exact (D j q y Hy Hj0).
  - intros q k Hk. cbn [children] in Hk. destruct (E q k Hk) as (y & Hy & Hlt). destruct (Nat.eq_dec k i) as [->|Hn].
    + rewrite Hi in Hy. injection Hy as -> ->. eauto.
    + eauto.
Qed.

Lemma inv_init b : inv (init b).
Proof.
  constructor; cbn.
  - intros [|i] p x H; [|destruct i; discriminate]. injection H as <- <-. cbn. split; [reflexivity|]. split; [reflexivity|]. exists b. split; [|auto].
    repeat split; try (intros x []; fail); try (intros c l []; fail); auto.
  - constructor; [cbn; lia|constructor].
  - auto.
  - intros [|i] p x H; [congruence|destruct i; discriminate].
  - intros p k [].
Qed.

Lemma local_result c i p x : inv c -> nth_error (tasks c) i = Some (MkT p x) -> (forall l, x <> Ended l) -> result i (hist c) = None.
Proof. intros H Hi Hx. pose proof (i_local H i Hi) as Hl. destruct x; cbn in Hl; try tauto. exfalso. eapply Hx. reflexivity. Qed.

Lemma reg_results c i b R l : inv c -> reg i (hist c) b R -> results (tasks c) (group R) = Some l ->
  (forall k, In k (children i (hist c)) -> result k (hist c) <> None) /\ l = flat_map (fun k => outcome k (hist c)) (children i (hist c)).
Proof.
  intros H (M1 & M2 & _) Hl. apply (@results_spec (tasks c) (hist c)) in Hl.
  - rewrite M2 in Hl. destruct Hl as [H1 ->]. split; [|reflexivity]. intros k Hk. destruct (H1 k Hk) as [l' ->]. discriminate.
  - intros j p x Hj l' ->. exact (i_local H j Hj).
Qed.

Theorem inv_step cap c i c' : inv c -> step cap c i = Some c' -> inv c'.
Proof.
  intros H Hs. unfold step in Hs. destruct (nth_error (tasks c) i) as [[p x]|] eqn:Hi; [|discriminate].
  pose proof (i_local H i Hi) as Hl. assert (Hil := nth_lt Hi).
  destruct x as [k|o|r R|r ct R|R|l|l].
  - assert (G : inv (MkC (upd (tasks c) i (MkT p (begin k))) (entering i k ++ hist c))).
    { cbn [local] in Hl. destruct Hl as (L1 & L2 & L3 & L4). destruct k as [o|b]; cbn [begin entering app].
      - apply inv_quiet with (x := Queued (Plain o)); auto. cbn. auto.
      - apply inv_own with (x := Queued (Nested b)); auto. cbn [local result throws]. split; [exact L4|]. split; [exact L2|]. exists b. split; [|auto].
        unfold reg, raised. cbn [entered children throws group exs canceled new_region]. rewrite Nat.eqb_refl, L1, L2.
        repeat split; try (intros z []; fail); auto; intros z l []. }
    destruct cap as [n|]; [destruct (n <=? _); [discriminate|]|]; injection Hs as <-; exact G.
  - cbn [local] in Hl. destruct Hl as (L1 & L2 & L3 & L4). destruct o as [n|]; injection Hs as <-; cbn [app].
    + apply inv_quiet with (x := Working (Some n)); auto. cbn. split; [exact L4|]. split; [discriminate|]. split; [intros b Hb; congruence|auto].
    + apply inv_end with (p := p) (x := Working None); auto.
      * intros b Hb. congruence.
      * apply upd_length.
      * exact (nth_upd_same _ Hi).
      * intros j q y Hn Hj. rewrite nth_upd_other by exact Hn. rewrite Hj. cbn [mark]. destruct (_ && _); reflexivity.
  - cbn [local] in Hl. destruct Hl as (L1 & L2 & b & HR & L4). pose proof HR as (M1 & M2 & M3 & M4 & M5 & M6). destruct r as [|[k|ct|n] r].
    + injection Hs as <-. cbn [app]. apply inv_quiet with (x := Body [] R); auto. cbn. split; [exact L1|]. exists b. exact HR.
    + destruct (canceled R) eqn:Ec.
      * injection Hs as <-. cbn [app]. apply inv_quiet with (x := Body (Run k :: r) R); auto. unfold body_throws. cbn. split; [exact L1|]. exists b. rewrite app_nil_r. repeat split; cbn; auto.
      * injection Hs as <-. rewrite <- Ec. apply inv_spawn with (k := k); auto.
    + destruct (canceled R) eqn:Ec; injection Hs as <-; cbn [app].
      * apply inv_quiet with (x := Body (Wait ct :: r) R); auto. assert (Hw : nowait b -> False) by (intros Hb; specialize (L4 Hb); inversion L4; discriminate).
        destruct ct; [cbn; split; [exact L1|]; split; [exact L2|]; exists b; split; [exact HR|tauto]|].
        unfold body_throws. cbn. split; [exact L1|]. exists b. rewrite app_nil_r. repeat split; cbn; auto.
      * apply inv_quiet with (x := Body (Wait ct :: r) R); auto. cbn. split; [exact L1|]. split; [exact L2|]. exists b. split; [exact HR|].
        intros Hb. specialize (L4 Hb). inversion L4. discriminate.
    + injection Hs as <-. cbn [app]. apply inv_own with (x := Body (Throw n :: r) R); auto. unfold body_throws. cbn [local result]. split; [exact L1|]. exists b.
      unfold reg. cbn [entered children throws group exs canceled handled]. rewrite Nat.eqb_refl, L2. cbn [app].
      assert (Hm : incl (raised i (hist c)) (raised i (Threw i n :: hist c))) by (apply raised_mono; discriminate).
      repeat split; auto.
      * intros z Hz. apply in_app_or in Hz as [Hz|[<-|[]]]; [apply Hm, M3, Hz|]. unfold raised. cbn [throws]. rewrite Nat.eqb_refl. apply in_or_app. left. apply in_or_app. right. now left.
      * intros z [<-|[]]. apply in_or_app. right. now left.
      * intros Hb. rewrite (M5 Hb), L2. reflexivity.
  - cbn [local] in Hl. destruct Hl as (L1 & L2 & b & HR & L4). pose proof HR as (M1 & M2 & M3 & M4 & M5 & M6).
    destruct (results (tasks c) (group R)) as [l|] eqn:El; [|discriminate]. destruct (reg_results H HR El) as [N1 N2].
    assert (Hl : incl l (raised i (hist c))) by (intros z Hz; unfold raised; apply in_or_app; right; rewrite <- N2; exact Hz).
    assert (HR' : reg i (hist c) b (MkR (canceled R) (exs R ++ l) (group R))).
    { repeat split; cbn; auto; [|intros z Hz; apply in_or_app; left; auto|tauto]. intros z Hz. apply in_app_or in Hz as [Hz|Hz]; auto. }
    cbn [exs] in Hs. destruct (exs R ++ l) as [|z es] eqn:Ees; injection Hs as <-; cbn [app].
    + apply inv_quiet with (x := Waiting r ct R); auto. cbn. split; [exact L1|]. split; [exact L2|]. exists b. split; [exact HR'|tauto].
    + apply inv_quiet with (x := Waiting r ct R); auto. destruct ct; [cbn; split; [exact L1|]; split; [exact L2|]; exists b; split; [exact HR'|tauto]|].
      unfold body_throws. cbn [local handled exs canceled group]. split; [exact L1|]. exists b. destruct HR' as (P1 & P2 & P3 & P4 & P5 & P6). cbn [exs canceled group] in *.
      repeat split; auto; try tauto.
      * intros y Hy. apply in_app_or in Hy as [Hy|Hy]; auto.
      * intros y Hy. apply in_or_app. left. auto.
  - cbn [local] in Hl. destruct Hl as (L1 & b & HR). pose proof HR as (M1 & M2 & M3 & M4 & M5 & M6).
    destruct (results (tasks c) (group R)) as [l|] eqn:El; [|discriminate]. destruct (reg_results H HR El) as [N1 N2].
    assert (Hrt : right i (hist c) (exs R ++ l)).
    { intros b' Hb'. rewrite M1 in Hb'. injection Hb' as <-. split; [exact N1|]. split.
      - intros n. unfold raised in *. rewrite <- N2 in *. split; intros Hn; apply in_app_or in Hn as [Hn|Hn]; try (apply in_or_app; auto; fail). apply M3, Hn.
      - intros Hb. unfold raised. rewrite <- N2, (M5 Hb). reflexivity. }
    destruct (exs R ++ l) as [|z es] eqn:Ees; injection Hs as <-; cbn [finish app].
    + apply inv_end with (p := p) (x := Final R); auto.
      * apply upd_length.
      * exact (nth_upd_same _ Hi).
      * intros j q y Hn Hj. rewrite nth_upd_other by exact Hn. rewrite Hj. cbn [mark]. destruct (_ && _); reflexivity.
    + apply inv_quiet with (x := Final R); auto. cbn. split; [exact L1|]. split; [discriminate|]. split; [exact Hrt|congruence].
  - cbn [local] in Hl. destruct Hl as (L1 & L2 & L3 & L4). injection Hs as <-. apply inv_end with (p := p) (x := Failing l); auto.
    + destruct (i =? 0); [apply upd_length|]. destruct (nth_error _ p) as [[q y]|]; rewrite ?upd_length; reflexivity.
    + destruct (Nat.eqb_spec i 0) as [E0|E0]; [exact (nth_upd_same _ Hi)|]. destruct (i_parent H Hi E0) as [_ Hlt].
      destruct (nth_error (upd _ _ _) p) as [[q y]|]; [rewrite nth_upd_other by lia|]; exact (nth_upd_same _ Hi).
    + intros j q y Hn Hj. destruct (Nat.eqb_spec i 0) as [E0|E0]; cbn [negb]; [rewrite andb_false_r, nth_upd_other by exact Hn; exact Hj|]. rewrite andb_true_r.
      destruct (Nat.eqb_spec j p) as [->|Hjp].
      * rewrite (nth_upd_other (tasks c) (MkT p (Ended l)) Hn), Hj. assert (Hp' : nth_error (upd (tasks c) i (MkT p (Ended l))) p = Some (MkT q y)) by (rewrite nth_upd_other by exact Hn; exact Hj).
        rewrite (nth_upd_same _ Hp'). unfold mark. destruct l; [congruence|reflexivity].
      * destruct (nth_error (upd (tasks c) i _) p) as [[q' y']|]; [rewrite nth_upd_other by exact Hjp|]; rewrite nth_upd_other by exact Hn; exact Hj.
  - discriminate.
Qed.

Theorem reach_inv cap b c : reach cap b c -> inv c.
Proof. induction 1; [apply inv_init|eapply inv_step; eauto]. Qed.

(** ** consequences for histories *)
Lemma good_app h2 h1 : good (h2 ++ h1) -> good h1.
Proof. induction h2 as [|e h2 IH]; cbn; [auto|]. intros [H _]. auto. Qed.
Lemma result_app i l h2 h1 : result i (h2 ++ Returned i l :: h1) <> None.
Proof.
  induction h2 as [|e h2 IH]; cbn [app result]; [now rewrite Nat.eqb_refl|]. destruct e; auto. destruct (i0 =? i); [discriminate|exact IH].
Qed.
Lemma good_over h2 i l h1 : good (h2 ++ Returned i l :: h1) -> forall c, ~ In (Spawned i c) h2.
Proof.
  induction h2 as [|e h2 IH]; [intros _ c []|]. cbn [app good]. intros [Hg He] c [->|Hin]; [|exact (IH Hg c Hin)].
  destruct He as [He _]. exact (result_app _ _ _ _ He).
Qed.
Lemma good_once h2 i l h1 : good (h2 ++ Returned i l :: h1) -> forall l', ~ In (Returned i l') (h2 ++ h1).
Proof.
  intros Hg l' Hin. assert (H1 : ~ In (Returned i l') h1).
  { apply good_app in Hg. destruct Hg as [_ [Hr _]]. intros H. clear -Hr H. induction h1 as [|e h IH]; [destruct H|]. destruct H as [->|H]; cbn in Hr; [rewrite Nat.eqb_refl in Hr; discriminate|].
    destruct e; auto. destruct (i0 =? i); [discriminate|auto]. }
  apply in_app_or in Hin as [Hin|Hin]; [|contradiction]. clear H1.
  induction h2 as [|e h2 IH]; [destruct Hin|]. cbn [app good] in Hg. destruct Hg as [Hg He]. destruct Hin as [->|Hin]; [|exact (IH Hg Hin)].
  destruct He as [He _]. exact (result_app _ _ _ _ He).
Qed.

(** ** termination *)
Definition weight (x : status) : nat :=
  match x with Queued k => tsize k | Working _ => 3 | Body r _ => 4 + bsize r | Waiting r _ _ => 5 + bsize r | Final _ => 3 | Failing _ => 2 | Ended _ => 0 end.
Fixpoint total (ts : list tsk) : nat := match ts with [] => 0 | x :: r => weight (st x) + total r end.
Lemma tsize_nested b : tsize (Nested b) = 5 + bsize b.
Proof. induction b as [|x b IH]; [reflexivity|]. cbn [tsize] in *. unfold bsize in *. cbn [fold_right]. destruct x; cbn [csize]; lia. Qed.
Lemma total_upd ts i x y : nth_error ts i = Some y -> total (upd ts i x) + weight (st y) = total ts + weight (st x).
Proof.
  revert i. induction ts as [|z ts IH]; intros [|i]; cbn; try discriminate; [intros [= ->]; lia|]. intros H. specialize (IH i H). lia.
Qed.
Lemma total_app a b : total (a ++ b) = total a + total b.
Proof. induction a; cbn; lia. Qed.
Lemma weight_set_canceled x : weight (set_canceled x) = weight x.
Proof. destruct x; reflexivity. Qed.
Lemma step_total cap c i c' : step cap c i = Some c' -> total (tasks c') < total (tasks c).
Proof.
  unfold step. destruct (nth_error (tasks c) i) as [[p x]|] eqn:Hi; [|discriminate]. intros Hs.
  assert (G : forall x', weight x' < weight x -> tasks c' = upd (tasks c) i (MkT p x') -> total (tasks c') < total (tasks c)).
  { intros x' Hw ->. pose proof (total_upd (tasks c) i (MkT p x') Hi) as H. cbn [st] in H. lia. }
  destruct x as [k|o|r R|r ct R|R|l|l].
  - assert (Hw : weight (begin k) < weight (Queued k)) by (destruct k; cbn [begin weight]; [cbn; lia|rewrite tsize_nested; lia]).
    destruct cap as [n|]; [destruct (n <=? _); [discriminate|]|]; injection Hs as Hs; exact (G _ Hw (f_equal tasks (eq_sym Hs))).
  - destruct o; injection Hs as Hs; refine (G _ _ (f_equal tasks (eq_sym Hs))); cbn; lia.
  - destruct r as [|[k|ct|n] r].
    + injection Hs as Hs. refine (G _ _ (f_equal tasks (eq_sym Hs))); unfold weight, bsize; cbn [fold_right]; lia.
    + destruct (canceled R).
      * injection Hs as Hs. refine (G _ _ (f_equal tasks (eq_sym Hs))). unfold body_throws, weight. lia.
      * injection Hs as <-. cbn [tasks]. rewrite total_app.
        match goal with |- context [upd (tasks c) i ?z] => pose proof (total_upd (tasks c) i z Hi) as H end. cbn [st weight total bsize fold_right csize] in *. fold (bsize r) in *. lia.
    + destruct (canceled R); injection Hs as Hs; refine (G _ _ (f_equal tasks (eq_sym Hs))); [destruct ct|]; unfold body_throws, weight, bsize; cbn [fold_right csize]; lia.
    + injection Hs as Hs. refine (G _ _ (f_equal tasks (eq_sym Hs))). unfold body_throws, weight. lia.
  - destruct (results _ _) as [l|]; [|discriminate]. cbn [exs] in Hs. destruct (exs R ++ l); injection Hs as Hs; refine (G _ _ (f_equal tasks (eq_sym Hs))); [|destruct ct]; unfold body_throws, weight; lia.
  - destruct (results _ _) as [l|]; [|discriminate]. destruct (exs R ++ l); injection Hs as Hs; refine (G _ _ (f_equal tasks (eq_sym Hs))); unfold finish, weight; lia.
  - injection Hs as <-. cbn [tasks]. pose proof (total_upd (tasks c) i (MkT p (Ended l)) Hi) as H. cbn [st weight] in H.
    destruct (i =? 0); [lia|]. destruct (nth_error (upd _ _ _) p) as [[q y]|] eqn:Ep; [|lia].
    pose proof (total_upd _ p (MkT q (set_canceled y)) Ep) as H2. cbn [st] in H2. rewrite weight_set_canceled in H2. lia.
  - discriminate.
Qed.
Lemma runs_total cap is : forall c c', runs cap c is = Some c' -> length is + total (tasks c') <= total (tasks c).
Proof.
  induction is as [|i is IH]; cbn; intros c c' H; [injection H as <-; lia|]. destruct (step cap c i) as [c1|] eqn:E; [|discriminate].
  pose proof (step_total _ _ _ E). specialize (IH _ _ H). lia.
Qed.
Lemma runs_reach cap b is : forall c c', reach cap b c -> runs cap c is = Some c' -> reach cap b c'.
Proof.
  induction is as [|i is IH]; cbn; intros c c' Hc H; [injection H as <-; exact Hc|]. destruct (step cap c i) as [c1|] eqn:E; [|discriminate].
  eapply IH; [|exact H]. eapply reach_step; eauto.
Qed.

(** ** nothing gets stuck *)
Definition ended (t : tsk) : Prop := exists l, st t = Ended l.
Lemma stuck_cases cap c i p x : inv c -> step cap c i = None -> nth_error (tasks c) i = Some (MkT p x) ->
  (forall k y, In k (children i (hist c)) -> nth_error (tasks c) k = Some y -> ended y) ->
  (exists l, x = Ended l) \/ (exists k, x = Queued k /\ exists n, cap = Some n /\ n <= count_active 0 (tasks c)).
Proof.
  intros H Hs Hi Hk. pose proof (i_local H i Hi) as Hl. unfold step in Hs. rewrite Hi in Hs.
  assert (G : forall b R, reg i (hist c) b R -> results (tasks c) (group R) <> None).
  { intros b R (_ & M2 & _) E. apply results_none in E as (k & Hk1 & Hk2). rewrite M2 in Hk1. destruct (i_child H i k Hk1) as (y & Hy & _).
    destruct (Hk k _ Hk1 Hy) as [l El]. cbn in El. subst y. exact (Hk2 i l Hy). }
  destruct x as [k|o|r R|r ct R|R|l|l]; eauto.
  - destruct cap as [n|]; [|discriminate]. destruct (Nat.leb_spec n (count_active 0 (tasks c))); [|discriminate]. right. eauto 6.
  - destruct o; discriminate.
  - destruct r as [|[k|ct|n] r]; try discriminate; destruct (canceled R); discriminate.
  - cbn in Hl. destruct Hl as (_ & _ & b & HR & _). specialize (G b R HR). destruct (results _ _) as [l|]; [|congruence]. cbn [exs] in Hs. destruct (exs R ++ l); discriminate.
  - cbn in Hl. destruct Hl as (_ & b & HR). specialize (G b R HR). destruct (results _ _) as [l|]; [|congruence]. discriminate.
  - discriminate.
Qed.
Lemma unlimited_progress c : inv c -> (forall i, step None c i = None) -> Forall ended (tasks c).
Proof.
  intros H Hs. assert (G : forall n i t, length (tasks c) - i <= n -> nth_error (tasks c) i = Some t -> ended t).
  { induction n as [|n IH]; intros i [p x] Hle Hi; [apply nth_lt in Hi; lia|].
    destruct (stuck_cases None i H (Hs i) Hi) as [[l ->]|(k & _ & n' & E & _)]; [|exists l; reflexivity|discriminate].
    intros k y Hk Hy. apply (IH k y); [|exact Hy]. destruct (i_child H i k Hk) as (_ & _ & Hlt). apply nth_lt in Hi. lia. }
  apply Forall_forall. intros t Ht. apply In_nth_error in Ht as [i Hi]. exact (G (length (tasks c)) i t ltac:(lia) Hi).
Qed.

(** tasks without regions of their own on a pool *)
Definition simple (i : nat) (x : status) : Prop :=
  match i, x with
  | 0, (Body r _ | Waiting r _ _) => flat r
  | 0, (Queued _ | Working _) => False
  | 0, _ => True
  | _, (Queued (Plain _) | Working _ | Failing _ | Ended _) => True
  | _, _ => False
  end.
Lemma simple_set_canceled i x : simple i x -> simple i (set_canceled x).
Proof. destruct i, x; cbn; auto. Qed.
Lemma simple_step cap c i c' : (forall j p x, nth_error (tasks c) j = Some (MkT p x) -> simple j x) -> step cap c i = Some c' ->
  forall j p x, nth_error (tasks c') j = Some (MkT p x) -> simple j x.
Proof.
  intros H Hs. unfold step in Hs. destruct (nth_error (tasks c) i) as [[p x]|] eqn:Hi; [|discriminate]. pose proof (H i p x Hi) as Hx.
  assert (G : forall x' ev, simple i x' -> Some (MkC (upd (tasks c) i (MkT p x')) (ev ++ hist c)) = Some c' -> forall j q y, nth_error (tasks c') j = Some (MkT q y) -> simple j y).
  { intros x' ev Hx' [= <-] j q y Hj. cbn [tasks] in Hj. destruct (Nat.eq_dec j i) as [->|Hn]; [rewrite (nth_upd_same _ Hi) in Hj; injection Hj as <- <-; exact Hx'|].
    rewrite nth_upd_other in Hj by exact Hn. eauto. }
  destruct x as [k|o|r R|r ct R|R|l|l].
  - assert (Hb : simple i (begin k)) by (destruct i, k; cbn in *; auto; contradiction).
    destruct cap as [n|]; [destruct (n <=? _); [discriminate|]|]; exact (G _ _ Hb Hs).
  - destruct i; [contradiction|]. destruct o; eapply G; try exact Hs; exact I.
  - destruct i; [|contradiction]. cbn in Hx. destruct r as [|[k|ct|n] r].
    + eapply G; [|exact Hs]. exact I.
    + destruct (canceled R); [eapply G; [|exact Hs]; exact I|]. injection Hs as <-. cbn [tasks]. intros j q y Hj.
      inversion Hx as [|? ? Hk Hr]; subst. destruct k as [o|b]; [|contradiction].
      destruct (Nat.lt_ge_cases j (length (tasks c))) as [Hlt|Hge].
      * rewrite nth_error_app1 in Hj by (rewrite upd_length; exact Hlt). destruct (Nat.eq_dec j 0) as [->|Hn]; [rewrite (nth_upd_same _ Hi) in Hj; injection Hj as <- <-; exact Hr|].
        rewrite nth_upd_other in Hj by exact Hn. eauto.
      * rewrite nth_error_app2 in Hj by (rewrite upd_length; exact Hge). rewrite upd_length in Hj. assert (0 < length (tasks c)) by exact (nth_lt Hi).
        destruct (j - length (tasks c)) as [|z]; cbn in Hj; [|destruct z; discriminate]. injection Hj as <- <-. destruct j; [lia|exact I].
    + inversion Hx as [|? ? _ Hr]; subst. destruct (canceled R); (eapply G; [|exact Hs]); [destruct ct; [exact Hr|exact I]|exact Hr].
    + eapply G; [|exact Hs]. exact I.
  - destruct i; [|contradiction]. cbn in Hx. destruct (results _ _) as [l|]; [|discriminate]. cbn [exs] in Hs. destruct (exs R ++ l); (eapply G; [|exact Hs]); [exact Hx|destruct ct; [exact Hx|exact I]].
  - destruct i; [|contradiction]. destruct (results _ _) as [l|]; [|discriminate]. eapply G; [|exact Hs]. destruct (exs R ++ l); exact I.
  - injection Hs as <-. cbn [tasks]. assert (He : simple i (Ended l)) by (destruct i; exact I).
    assert (G1 : forall j q y, nth_error (upd (tasks c) i (MkT p (Ended l))) j = Some (MkT q y) -> simple j y) by (intros j q y Hj; destruct (Nat.eq_dec j i) as [->|Hn]; [rewrite (nth_upd_same _ Hi) in Hj; injection Hj as <- <-; exact He|rewrite nth_upd_other in Hj by exact Hn; eauto]).
    destruct (i =? 0); [exact G1|]. destruct (nth_error (upd (tasks c) i (MkT p (Ended l))) p) as [[q y]|] eqn:Ep; [|exact G1].
    intros j q' y' Hj. destruct (Nat.eq_dec j p) as [->|Hn]; [rewrite (nth_upd_same _ Ep) in Hj; injection Hj as <- <-; apply simple_set_canceled; eauto|].
    rewrite nth_upd_other in Hj by exact Hn. eauto.
  - discriminate.
Qed.
Lemma simple_reach cap b c : flat b -> reach cap b c -> forall j p x, nth_error (tasks c) j = Some (MkT p x) -> simple j x.
Proof.
  intros Hf. induction 1 as [|c c' i Hc IH Hs]; [|exact (simple_step _ _ _ IH Hs)].
  intros [|j] p x Hj; [injection Hj as <- <-; exact Hf|destruct j; discriminate].
Qed.
Lemma count_zero ts : forall i, (forall j t, nth_error ts j = Some t -> active (i + j) (st t) = false) -> count_active i ts = 0.
Proof.
  induction ts as [|t ts IH]; intros i H; [reflexivity|]. cbn. pose proof (H 0 t eq_refl) as H0. rewrite Nat.add_0_r in H0. rewrite H0. apply IH.
  intros j t' Hj. specialize (H (S j) t' Hj). now rewrite Nat.add_succ_r in H.
Qed.
Lemma pool_progress n b c : flat b -> 0 < n -> reach (Some n) b c -> (forall i, step (Some n) c i = None) -> Forall ended (tasks c).
Proof.
  intros Hf Hn Hr Hs. pose proof (reach_inv Hr) as H. pose proof (simple_reach Hf Hr) as Hx.
  assert (Hnc : forall i p x, nth_error (tasks c) i = Some (MkT p x) -> i <> 0 -> (exists l, x = Ended l) \/ (exists k, x = Queued k /\ n <= count_active 0 (tasks c))).
  { intros i p x Hi H0. pose proof (Hx i p x Hi) as Hsi. specialize (Hs i). unfold step in Hs. rewrite Hi in Hs. destruct i; [congruence|].
    destruct x as [k|o|r R|r ct R|R|l|l]; cbn in Hsi; try contradiction; eauto.
    - destruct (Nat.leb_spec n (count_active 0 (tasks c))); [|discriminate]. right. eauto.
    - destruct o; discriminate.
    - discriminate. }
  assert (Hz : count_active 0 (tasks c) = 0).
  { apply count_zero. intros j [p x] Hj. cbn [Nat.add st]. destruct j; [reflexivity|]. destruct (Hnc _ p x Hj) as [[l ->]|(k & -> & _)]; [discriminate|reflexivity|reflexivity]. }
  assert (He : forall i p x, nth_error (tasks c) i = Some (MkT p x) -> i <> 0 -> exists l, x = Ended l).
  { intros i p x Hi H0. destruct (Hnc i p x Hi H0) as [E|(k & _ & Hle)]; [exact E|lia]. }
  apply Forall_forall. intros [p x] Ht. apply In_nth_error in Ht as [i Hi]. destruct (Nat.eq_dec i 0) as [->|H0].
  - destruct (stuck_cases (Some n) 0 H (Hs 0) Hi) as [[l ->]|(k & _ & n' & [= <-] & Hle)]; [|exists l; reflexivity|lia].
    intros k [q y] Hk Hy. destruct (i_child H 0 k Hk) as (_ & _ & Hlt). destruct (He k q y Hy) as [l ->]; [lia|]. exists l. reflexivity.
  - destruct (He i p x Hi H0) as [l ->]. exists l. reflexivity.
Qed.

Lemma good_entered h i k : good h -> In k (children i h) -> entered i h <> None.
Proof.
  induction h as [|e h IH]; cbn [good]; [intros _ []|]. intros [Hg He] Hk. specialize (IH Hg). destruct e as [j b|p c|j n|j l]; cbn [children entered] in *; auto.
  - destruct (j =? i); [discriminate|auto].
  - destruct (Nat.eqb_spec p i) as [->|]; [apply He|auto].
Qed.
Lemma result_split i h l : result i h = Some l -> exists h2 h1, h = h2 ++ Returned i l :: h1.
Proof.
  induction h as [|e h IH]; cbn; [discriminate|]. intros H.
  assert (G : result i h = Some l -> exists h2 h1, e :: h = h2 ++ Returned i l :: h1) by (intros H'; destruct (IH H') as (h2 & h1 & ->); exists (e :: h2), h1; reflexivity).
  destruct e; auto. destruct (Nat.eqb_spec i0 i) as [->|]; [injection H as ->; exists [], h; reflexivity|auto].
Qed.
Lemma children_app i h2 h1 : (forall c, ~ In (Spawned i c) h2) -> children i (h2 ++ h1) = children i h1.
Proof.
  induction h2 as [|e h2 IH]; cbn [app]; intros H; [reflexivity|]. destruct e as [j b|p c|j n|j l]; cbn [children]; try (apply IH; intros c' Hc; apply (H c'); now right).
  destruct (Nat.eqb_spec p i) as [->|]; [exfalso; apply (H c); now left|]. apply IH; intros c' Hc; apply (H c'); now right.
Qed.
Lemma result_mono i h2 h1 : result i h1 <> None -> result i (h2 ++ h1) <> None.
Proof. intros H. induction h2 as [|e h2 IH]; [exact H|]. cbn [app result]. destruct e; auto. destruct (i0 =? i); [discriminate|exact IH]. Qed.
Lemma good_join h2 i l h1 k : good (h2 ++ Returned i l :: h1) -> In k (children i (h2 ++ Returned i l :: h1)) -> result k h1 <> None.
Proof.
  intros Hg Hk. pose proof (good_over _ _ _ _ Hg) as Ho. rewrite children_app in Hk by exact Ho. cbn [children] in Hk.
  apply good_app in Hg. destruct Hg as [Hg [_ Hr]]. pose proof (good_entered _ _ _ Hg Hk) as He. destruct (entered i h1) as [b|] eqn:Eb; [|congruence].
  destruct (Hr b Eb) as [H _]. exact (H k Hk).
Qed.
Lemma good_descendants h2 i l h1 k : good (h2 ++ Returned i l :: h1) -> descendant (h2 ++ Returned i l :: h1) i k -> result k h1 <> None.
Proof.
  intros Hg Hd. induction Hd as [k Hk|j k Hd IH Hk]; [exact (good_join _ _ _ _ _ Hg Hk)|].
  destruct (result j h1) as [lj|] eqn:Ej; [|congruence]. destruct (result_split _ _ Ej) as (a & b & ->).
  assert (E : h2 ++ Returned i l :: a ++ Returned j lj :: b = (h2 ++ Returned i l :: a) ++ Returned j lj :: b) by (rewrite <- app_assoc; reflexivity).
  rewrite E in Hg, Hk. pose proof (good_join _ _ _ _ _ Hg Hk) as H. change (a ++ Returned j lj :: b) with (a ++ [Returned j lj] ++ b). rewrite app_assoc. now apply result_mono.
Qed.

Lemma step_length cap c i c' : step cap c i = Some c' -> length (tasks c) <= length (tasks c').
Proof.
  unfold step. destruct (nth_error (tasks c) i) as [[p x]|]; [|discriminate]. intros Hs.
  repeat match type of Hs with
    | (match ?e with _ => _ end) = Some _ => destruct e; try discriminate
    | (if ?e then _ else _) = Some _ => destruct e; try discriminate
    end; try (injection Hs as <-; cbn [tasks]; rewrite ?app_length, ?upd_length; lia).
  injection Hs as <-. cbn [tasks]. destruct (i =? 0); [rewrite upd_length; lia|]. destruct (nth_error _ p) as [[q y]|]; rewrite ?upd_length; lia.
Qed.
