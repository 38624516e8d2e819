(** * Views and timestamps (proofs) *)
From Coq Require Import List Arith Lia Bool.
Import ListNotations.
From Verif Require Import OM_Model OM_Spec OM_Frames.

Definition top (M : nat -> list msg) (g : nat) : nat := match M g with m :: _ => m_ts m | [] => 0 end.
Definition val (M : nat -> list msg) (g : nat) : nat := match M g with m :: _ => m_val m | [] => 0 end.
Definition topv (M : nat -> list msg) (g : nat) : view := match M g with m :: _ => m_view m | [] => v0 end.

(** The newest write is at the head of the list; only it says that the function is complete; nobody is
    past it. *)
Record MI (M : nat -> list msg) (V : nat -> view) (X : view) : Prop := {
  m_ne : forall g, M g <> [];
  m_hd : forall g m r x, M g = m :: r -> In x r -> m_ts x < m_ts m /\ m_val x < 2;
  m_vw : forall t g, v_ts (V t) g <= top M g;
  m_mg : forall k m g, In m (M k) -> v_ts (m_view m) g <= top M g;
  m_mx : forall g, v_ts X g <= top M g }.

Lemma raise_ts : forall v g n h, v_ts (raise v g n) h = if h =? g then Nat.max (v_ts v h) n else v_ts v h.
Proof. reflexivity. Qed.
Lemma raise_eq : forall v g n, v_ts (raise v g n) g = Nat.max (v_ts v g) n.
Proof. intros. cbn. now rewrite Nat.eqb_refl. Qed.
Lemma raise_ge : forall v g n h, v_ts v h <= v_ts (raise v g n) h.
Proof. intros. cbn. destruct (h =? g); lia. Qed.
Lemma rview_ge : forall o v g m h, v_ts v h <= v_ts (rview o v g m) h.
Proof.
  intros. unfold rview. pose proof (raise_ge v g (m_ts m) h). destruct (acquires o); auto.
  unfold join, v_ts at 2. lia.
Qed.
Lemma rview_see : forall o v g m, incl (v_see v) (v_see (rview o v g m)).
Proof. intros. unfold rview. destruct (acquires o); cbn; [apply incl_appl|]; apply incl_refl. Qed.
Lemma rview_acq : forall o v g m, acquires o = true -> incl (v_see (m_view m)) (v_see (rview o v g m)).
Proof. intros o v g m H. unfold rview. rewrite H. cbn. apply incl_appr, incl_refl. Qed.

Lemma top_in : forall M V X g m, MI M V X -> In m (M g) -> m_ts m <= top M g.
Proof.
  intros M V X g m I H. unfold top. destruct (M g) as [|m0 r] eqn:E; [destruct H|].
  destruct H as [->|H]; auto. apply (m_hd _ _ _ I _ _ _ _ E) in H. lia.
Qed.
(** A write that is not before the newest one is the newest one. *)
Lemma top_is : forall M V X g m, MI M V X -> In m (M g) -> top M g <= m_ts m ->
  m_ts m = top M g /\ m_val m = val M g /\ m_view m = topv M g.
Proof.
  intros M V X g m I H L. unfold top, val, topv in *. destruct (M g) as [|m0 r] eqn:E; [destruct H|].
  destruct H as [->|H]; auto. apply (m_hd _ _ _ I _ _ _ _ E) in H. lia.
Qed.
(** So is one that says that the function is complete. *)
Lemma fin_is : forall M V X g m, MI M V X -> In m (M g) -> 2 <= m_val m -> m_val m = val M g /\ m_view m = topv M g.
Proof.
  intros M V X g m I H L. unfold val, topv in *. destruct (M g) as [|m0 r] eqn:E; [destruct H|].
  destruct H as [->|H]; auto. apply (m_hd _ _ _ I _ _ _ _ E) in H. lia.
Qed.

Lemma rview_le : forall M V X o t g m h, MI M V X -> In m (M g) -> v_ts (rview o (V t) g m) h <= top M h.
Proof.
  intros M V X o t g m h I H.
  assert (K : v_ts (raise (V t) g (m_ts m)) h <= top M h).
  { rewrite raise_ts. pose proof (m_vw _ _ _ I t h). destruct (h =? g) eqn:E; auto.
    apply Nat.eqb_eq in E. subst. pose proof (top_in _ _ _ _ _ I H). lia. }
  unfold rview. destruct (acquires o); auto. cbn [join v_ts]. apply Nat.max_lub; auto. eapply (m_mg _ _ _ I); eauto.
Qed.
Lemma join_le : forall a b (n h : nat), v_ts a h <= n -> v_ts b h <= n -> v_ts (join a b) h <= n.
Proof. intros. cbn. lia. Qed.

Lemma MI_put : forall M V X t v, MI M V X -> (forall g, v_ts v g <= top M g) -> MI M (upd V t v) X.
Proof.
  intros M V X t v I L. constructor; try apply I. intros u g. upd_cases u t; [apply L|apply I].
Qed.
Lemma MI_mx : forall M V X v, MI M V X -> (forall g, v_ts v g <= top M g) -> MI M V v.
Proof. intros M V X v I L. constructor; try apply I. exact L. Qed.

Lemma top_upd : forall M g m h, top (upd M g (m :: M g)) h = if h =? g then m_ts m else top M h.
Proof. intros. unfold top, upd. destruct (h =? g); reflexivity. Qed.
Lemma val_upd : forall M g m h, val (upd M g (m :: M g)) h = upd (val M) g (m_val m) h.
Proof. intros. unfold val, upd. destruct (h =? g); reflexivity. Qed.

(** A write in front of the newest. *)
Lemma MI_wr : forall M V X o t v g n x, MI M V X -> (forall h, v_ts v h <= top M h) ->
  top M g < n -> val M g < 2 ->
  MI (upd M g (wmsg o v g n x :: M g)) (upd V t (raise v g n)) X.
Proof.
  intros M V X o t v g n x I L T N.
  assert (U : forall h, top M h <= top (upd M g (wmsg o v g n x :: M g)) h).
  { intros h. rewrite top_upd. destruct (h =? g) eqn:E; auto. apply Nat.eqb_eq in E. subst. cbn. lia. }
  assert (R : forall w h, (forall k, v_ts w k <= top M k) -> v_ts (raise w g n) h <= top (upd M g (wmsg o v g n x :: M g)) h).
  { intros w h Lw. specialize (Lw h). rewrite top_upd, raise_ts. destruct (h =? g) eqn:E; auto. apply Nat.eqb_eq in E. subst. cbn. lia. }
  constructor.
  - intros h. unfold upd. destruct (h =? g); [discriminate|apply I].
  - intros h m r y. upd_cases h g.
    + intros E H. injection E as <- <-. cbn [m_ts wmsg]. split.
      * pose proof (top_in _ _ _ _ _ I H). lia.
      * unfold val in N. destruct (M g) as [|m0 q] eqn:Q; [destruct H|]. destruct H as [->|H]; auto.
        now apply (m_hd _ _ _ I _ _ _ _ Q) in H.
    + apply I.
  - intros u h. upd_cases u t; [now apply R|]. pose proof (m_vw _ _ _ I u h). specialize (U h). lia.
  - intros k m h H. assert (K : m = wmsg o v g n x \/ In m (M k)).
    { upd_cases k g; auto. destruct H; auto. }
    destruct K as [->|K].
    + cbn [m_view wmsg]. destruct (releases o); apply R; auto. intros; cbn; lia.
    + pose proof (m_mg _ _ _ I _ _ h K). specialize (U h). lia.
  - intros h. pose proof (m_mx _ _ _ I h). specialize (U h). lia.
Qed.

(** What is seen, where writes carry views: by the thread that has taken the flag, in the newest write, and
    by a thread that is about to return. *)
Record SI (M : nat -> list msg) (ow : nat -> option nat) (V : nat -> view) (S : nat -> list frame) (h : list ev) : Prop := {
  s_own : forall g t, ow g = Some t -> sees_all g (v_see (V t)) h;
  s_top : forall g, ow g = None -> sees_all g (v_see (topv M g)) h;
  s_ret : forall t g, In (FUnl g NRet) (S t) -> sees_all g (v_see (V t)) h }.

Definition same_ends (h h' : list ev) : Prop := forall t g e ok, In (EvEnd t g e ok) h' -> In (EvEnd t g e ok) h.
Lemma same_neutral : forall h h', neutral h h' -> same_ends h h'.
Proof. intros h h' N t g e ok. now apply neutral_end. Qed.
Lemma same_start : forall h t g e w, same_ends h (EvStart t g e w :: h).
Proof. intros h t g e w u k f ok [H|H]; [discriminate|auto]. Qed.
Lemma sees_mono : forall g a b h h', sees_all g a h -> incl a b -> same_ends h h' -> sees_all g b h'.
Proof. intros g a b h h' S I N t e ok H. apply I, (S t e ok), N, H. Qed.

Lemma SI_put : forall M ow V S h h' t v fs, SI M ow V S h -> same_ends h h' -> incl (v_see (V t)) (v_see v) ->
  (forall g, In (FUnl g NRet) fs -> In (FUnl g NRet) (S t) \/ sees_all g (v_see v) h) ->
  SI M ow (upd V t v) (upd S t fs) h'.
Proof.
  intros M ow V S h h' t v fs I N L F. constructor.
  - intros g u W. upd_cases u t; eapply sees_mono; eauto using incl_refl; now apply (s_own _ _ _ _ _ I).
  - intros g W. eapply sees_mono; eauto using incl_refl. now apply (s_top _ _ _ _ _ I).
  - intros u g H. upd_cases u t.
    + destruct (F _ H) as [K|K]; eapply sees_mono; eauto using incl_refl; now apply (s_ret _ _ _ _ _ I).
    + eapply sees_mono; eauto using incl_refl; now apply (s_ret _ _ _ _ _ I).
Qed.

(** The flag [g] is taken by [t], which sees everything. *)
Lemma SI_take : forall M ow V S h g t m, SI M ow V S h -> sees_all g (v_see (V t)) h ->
  SI (upd M g (m :: M g)) (upd ow g (Some t)) V S h.
Proof.
  intros M ow V S h g t m I L. constructor.
  - intros k u W. upd_cases k g; [injection W as <-; auto|]. now apply (s_own _ _ _ _ _ I).
  - intros k W. unfold topv. upd_cases k g; [discriminate|]. now apply (s_top _ _ _ _ _ I).
  - apply I.
Qed.
(** It is given up with a write that carries what its thread sees. *)
Lemma SI_store : forall M ow V S h g t m, SI M ow V S h -> ow g = Some t -> incl (v_see (V t)) (v_see (m_view m)) ->
  SI (upd M g (m :: M g)) (upd ow g None) V S h.
Proof.
  intros M ow V S h g t m I W L. constructor.
  - intros k u K. upd_cases k g; [discriminate|]. now apply (s_own _ _ _ _ _ I).
  - intros k K. unfold topv. upd_cases k g.
    + eapply sees_mono; [apply (s_own _ _ _ _ _ I _ _ W)|auto|intros ? ? ? ?; auto].
    + now apply (s_top _ _ _ _ _ I).
  - apply I.
Qed.
Lemma SI_end : forall M ow V S h t g e ok r, FI (val M) ow S h -> SI M ow V S h -> S t = FBody g e :: r ->
  SI M ow (upd V t (see (V t) e)) (upd S t (FDone g e ok :: r)) (EvEnd t g e ok :: h).
Proof.
  intros M ow V S h t g e ok r F I E.
  destruct (own_one _ _ _ _ F t g _ _ E (Nat.eqb_refl g)) as (W & U1 & U2).
  assert (G : forall k (x : list nat), k <> g -> sees_all k x h -> sees_all k x (EvEnd t g e ok :: h)).
  { intros k x N K u f b [H|H]; [congruence|]. now apply (K u f b). }
  constructor.
  - intros k u K. upd_cases u t.
    + intros u' e' ok' [H|H]; [injection H as <- <- <- <-; now left|]. right. now apply (s_own _ _ _ _ _ I _ _ K u' e' ok').
    + apply G; [intros ->; congruence|]. now apply (s_own _ _ _ _ _ I).
  - intros k K. apply G; [intros ->; congruence|]. now apply (s_top _ _ _ _ _ I).
  - intros u k H.
    assert (N : k <> g).
    { intros ->. assert (In (FUnl g NRet) (S u)) as K.
      { upd_cases u t; auto. rewrite E. destruct H as [H|H]; [discriminate|now right]. }
      apply (f_fr _ _ _ _ F) in K. cbn in K. rewrite (f_some _ _ _ _ F _ _ W) in K. lia. }
    apply G; auto. upd_cases u t; [|now apply (s_ret _ _ _ _ _ I)].
    destruct H as [H|H]; [discriminate|].
    intros u' e' ok' K. right. refine (s_ret _ _ _ _ _ I t k _ u' e' ok' K). rewrite E. now right.
Qed.
