(** * Windows condition variables under release/acquire memory (proofs) *)
From Verif Require Import WT_Model WT_Spec.

Lemma upd_eq : forall A (f : nat -> A) t x, upd f t x t = x.
Proof. intros. unfold upd. now rewrite Nat.eqb_refl. Qed.
Lemma upd_ne : forall A (f : nat -> A) t x u, u <> t -> upd f t x u = f u.
Proof. intros. unfold upd. destruct (u =? t) eqn:E; auto. apply Nat.eqb_eq in E. contradiction. Qed.

(** The oldest [n] events. *)
Definition oldest (n : nat) (h : list ev) : list ev := skipn (length h - n) h.
Lemma oldest_cons : forall n x h, n <= length h -> oldest n (x :: h) = oldest n h.
Proof. intros n x h H. unfold oldest. cbn [length]. rewrite Nat.sub_succ_l by auto. reflexivity. Qed.
Lemma oldest_all : forall h, oldest (length h) h = h.
Proof. intros h. unfold oldest. now rewrite Nat.sub_diag. Qed.
Lemma oldest_split : forall n h, h = firstn (length h - n) h ++ oldest n h.
Proof. intros. unfold oldest. symmetry. apply firstn_skipn. Qed.
Definition reg (e : nat) (h : list ev) : Prop := exists t, In (EReg t e) h.
Lemma reg_oldest : forall e n h, reg e (oldest n h) -> reg e h.
Proof. intros e n h (t & H). exists t. rewrite (oldest_split n h). apply in_or_app. auto. Qed.

(** [P k]: how long the history was just after write [k]. *)
Definition okv (P : nat -> nat) (s : st) (v : view) : Prop :=
  v_ts v < length (mem s) /\ forall k, v_ts v <= k -> k < length (mem s) -> forall e, In e (v_ev v) -> reg e (oldest (P k) (log s)).
Fixpoint wellh (h : list ev) : Prop :=
  match h with
  | [] => True
  | ENot t all false saw :: r => (exists mid old, r = mid ++ old /\ (forall e, In e saw -> reg e old) /\ waiting old = 0) /\ wellh r
  | ENot t all true saw :: r => 1 <= waiting r /\ wellh r
  | EReg t e :: r => ~ reg e r /\ wellh r
  end.
Record INVP (P : nat -> nat) (s : st) : Prop := {
  i_len : forall k, k < length (mem s) -> P k <= length (log s);
  i_val : forall k m, nth_error (mem s) k = Some m -> waiting (oldest (P k) (log s)) = m_val m;
  i_cur : forall m, nth_error (mem s) (v_ts (lv s)) = Some m -> waiting (log s) = m_val m;
  i_top : S (v_ts (lv s)) = length (mem s);
  i_vw : forall t, okv P s (vw s t);
  i_lv : okv P s (lv s);
  i_pub : forall v, In v (pub s) -> okv P s v;
  i_mv : forall k m, nth_error (mem s) k = Some m -> okv P s (m_view m);
  i_fresh : forall t e, In (EReg t e) (log s) -> e < nexte s;
  i_well : wellh (log s) }.

Lemma okv_join : forall P s a b, okv P s a -> okv P s b -> okv P s (join a b).
Proof.
  intros P s a b [A1 A2] [B1 B2]. unfold join. split; cbn [v_ts v_ev]; [lia|]. intros k K L e H. apply in_app_or in H. destruct H as [H|H]; [eapply A2|eapply B2]; eauto; lia.
Qed.
Lemma okv_ts : forall P s k, k < length (mem s) -> okv P s (V k []).
Proof. intros P s k H. split; [auto|]. intros ? ? ? e []. Qed.
Lemma okv_reg : forall P s v e, okv P s v -> In e (v_ev v) -> reg e (log s).
Proof. intros P s v e [A B] H. eapply reg_oldest. eapply (B (v_ts v)); eauto. Qed.
(** An event that is not a write. *)
Lemma okv_log : forall P s s' v x, (forall k, k < length (mem s) -> P k <= length (log s)) -> mem s' = mem s -> log s' = x :: log s -> okv P s v -> okv P s' v.
Proof.
  intros P s s' v x L M E [A B]. split; [now rewrite M|]. intros k K1 K2 e H. rewrite M in K2. rewrite E, oldest_cons by auto. eapply B; eauto.
Qed.
(** A write. *)
Lemma okv_write : forall P s s' v x m, (forall k, k < length (mem s) -> P k <= length (log s)) -> mem s' = mem s ++ [m] -> log s' = x :: log s -> okv P s v ->
  okv (upd P (length (mem s)) (length (log s'))) s' v.
Proof.
  intros P s s' v x m L M E O. pose proof O as [A B]. split; [rewrite M, app_length; cbn; lia|]. intros k K1 K2 e H. rewrite M, app_length in K2. cbn in K2.
  destruct (Nat.eq_dec k (length (mem s))) as [->|N].
  - rewrite upd_eq, oldest_all, E. destruct (okv_reg _ _ _ _ O H) as (t & K). exists t. now right.
  - rewrite upd_ne by auto. rewrite E, oldest_cons by (apply L; lia). eapply B; eauto. lia.
Qed.
Lemma okv_new : forall P s s' x m l, mem s' = mem s ++ [m] -> log s' = x :: log s -> (forall e, In e l -> reg e (log s')) ->
  okv (upd P (length (mem s)) (length (log s'))) s' (V (length (mem s)) l).
Proof.
  intros P s s' x m l M E H. split; cbn [v_ts v_ev]; [rewrite M, app_length; cbn; lia|]. intros k K1 K2 e K. rewrite M, app_length in K2. cbn in K2.
  replace k with (length (mem s)) by lia. rewrite upd_eq, oldest_all. auto.
Qed.
Lemma nth_lt : forall A (l : list A) k x, nth_error l k = Some x -> k < length l.
Proof. intros A l k x H. apply nth_error_Some. congruence. Qed.
(** Under internal_mutex the newest write is read. *)
Lemma newest : forall P s t k m, INVP P s -> reads s (join (vw s t) (lv s)) k m -> waiting (log s) = m_val m.
Proof.
  intros P s t k m I [A B]. apply (i_cur _ _ I). pose proof (nth_lt _ _ _ _ B). pose proof (i_top _ _ I). unfold join in A. cbn in A.
  replace (v_ts (lv s)) with k by lia. exact B.
Qed.
Lemma INVP_write : forall P s s' x m v,
  INVP P s -> mem s' = mem s ++ [m] -> log s' = x :: log s -> lv s' = v -> v = V (length (mem s)) (v_ev v) -> m_view m = v ->
  waiting (log s') = m_val m -> (forall e, In e (v_ev v) -> reg e (log s')) -> (forall t, vw s' t = v \/ vw s' t = vw s t) -> pub s' = pub s ->
  (forall t e, In (EReg t e) (log s') -> e < nexte s') -> wellh (log s') ->
  INVP (upd P (length (mem s)) (length (log s'))) s'.
Proof.
  intros P s s' x m v I M E L Ev Mv W H Hv Hp F Wl.
  assert (N : okv (upd P (length (mem s)) (length (log s'))) s' v) by (rewrite Ev; eapply okv_new; eauto).
  assert (O : forall w, okv P s w -> okv (upd P (length (mem s)) (length (log s'))) s' w) by (intros w K; eapply okv_write; eauto; apply (i_len _ _ I)).
  assert (NE : forall k y, nth_error (mem s') k = Some y -> (k = length (mem s) /\ y = m) \/ (k < length (mem s) /\ nth_error (mem s) k = Some y)).
  { intros k y K. rewrite M in K. destruct (Nat.lt_ge_cases k (length (mem s))) as [C|C].
    - rewrite nth_error_app1 in K by auto. auto.
    - rewrite nth_error_app2 in K by auto. destruct (k - length (mem s)) as [|j] eqn:D; cbn in K; [injection K as <-; left; split; [lia|auto]|destruct j; discriminate]. }
  constructor.
  - intros k K. rewrite M, app_length in K. cbn in K. destruct (Nat.eq_dec k (length (mem s))) as [->|D]; [now rewrite upd_eq|]. rewrite upd_ne by auto.
    rewrite E. cbn. pose proof (i_len _ _ I k). lia.
  - intros k y K. destruct (NE _ _ K) as [[-> ->]|[C K']]; [now rewrite upd_eq, oldest_all|]. rewrite upd_ne by lia. rewrite E, oldest_cons by (now apply (i_len _ _ I)). now apply (i_val _ _ I).
  - intros y K. rewrite L, Ev in K. cbn in K. destruct (NE _ _ K) as [[_ ->]|[C _]]; [auto|lia].
  - rewrite L, Ev, M, app_length. cbn. lia.
  - intros t. destruct (Hv t) as [-> | ->]; [auto|apply O, (i_vw _ _ I)].
  - now rewrite L.
  - intros w K. rewrite Hp in K. now apply O, (i_pub _ _ I).
  - intros k y K. destruct (NE _ _ K) as [[_ ->]|[_ K']]; [now rewrite Mv|]. apply O. eapply (i_mv _ _ I); eauto.
  - exact F.
  - exact Wl.
Qed.
Lemma INVP_log : forall P s s' t all saw,
  INVP P s -> mem s' = mem s -> log s' = ENot t all false saw :: log s -> (okv P s (lv s') /\ v_ts (lv s') = v_ts (lv s)) -> (forall u, okv P s (vw s' u)) -> pub s' = pub s -> nexte s' = nexte s ->
  (exists mid old, log s = mid ++ old /\ (forall e, In e saw -> reg e old) /\ waiting old = 0) -> INVP P s'.
Proof.
  intros P s s' t all saw I M E [L1 L2] Hv Hp Hn H.
  assert (O : forall w, okv P s w -> okv P s' w) by (intros w K; eapply okv_log; eauto; apply (i_len _ _ I)).
  constructor.
  - intros k K. rewrite M in K. rewrite E. cbn. pose proof (i_len _ _ I k K). lia.
  - intros k m K. rewrite M in K. rewrite E, oldest_cons by (apply (i_len _ _ I); now apply nth_lt in K). now apply (i_val _ _ I).
  - intros m K. rewrite M, L2 in K. rewrite E. cbn. now apply (i_cur _ _ I).
  - rewrite L2, M. apply (i_top _ _ I).
  - intros u. now apply O.
  - now apply O.
  - intros w K. rewrite Hp in K. now apply O, (i_pub _ _ I).
  - intros k m K. rewrite M in K. apply O. eapply (i_mv _ _ I); eauto.
  - intros u e K. rewrite E in K. destruct K as [K|K]; [discriminate|]. rewrite Hn. eapply (i_fresh _ _ I); eauto.
  - rewrite E. split; [exact H|apply (i_well _ _ I)].
Qed.
Lemma INVP_view : forall P s s',
  INVP P s -> mem s' = mem s -> log s' = log s -> lv s' = lv s -> (forall u, okv P s (vw s' u)) -> (forall v, In v (pub s') -> okv P s v) -> nexte s' = nexte s -> INVP P s'.
Proof.
  intros P s s' I M E L Hv Hp Hn.
  assert (O : forall w, okv P s w -> okv P s' w) by (intros w [A B]; split; [now rewrite M|]; rewrite M, E; exact B).
  destruct I. constructor; rewrite ?M, ?E, ?L, ?Hn; auto. intros k m K. eauto.
Qed.
Lemma INV_step : forall s s', (exists P, INVP P s) -> step s s' -> exists P, INVP P s'.
Proof.
  intros s s' [P I] H. destruct H.
  - (* begin to wait *)
    subst v v'. assert (F : ~ reg (nexte s) (log s)) by (intros (u & K); pose proof (i_fresh _ _ I _ _ K); lia).
    eexists. eapply INVP_write with (v := V (length (mem s)) (nexte s :: v_ev (join (vw s t) (lv s)))); [exact I|reflexivity|reflexivity|reflexivity|reflexivity|reflexivity|..]; cbn [m_val log vw pub nexte v_ev].
    + cbn. rewrite (newest _ _ _ _ _ I H1). unfold one_more. lia.
    + intros e [<-|K]; [exists t; now left|]. destruct (okv_reg _ _ _ _ (okv_join _ _ _ _ (i_vw _ _ I t) (i_lv _ _ I)) K) as (u & K'). exists u. now right.
    + intros u. destruct (Nat.eq_dec u t) as [->|N]; [left; now rewrite upd_eq|right; now rewrite upd_ne].
    + reflexivity.
    + intros u e [K|K]; [injection K as _ <-; lia|]. pose proof (i_fresh _ _ I _ _ K). lia.
    + split; [exact F|apply (i_well _ _ I)].
  - (* reads 0 *)
    destruct H0 as [A B]. exists P. eapply INVP_log; [exact I|reflexivity|reflexivity|split; [apply (i_lv _ _ I)|reflexivity]| |reflexivity|reflexivity|].
    + intros u. cbn. destruct (Nat.eq_dec u t) as [->|N]; [rewrite upd_eq|rewrite upd_ne by auto; apply (i_vw _ _ I)].
      apply okv_join; [apply okv_join; [apply (i_vw _ _ I)|apply okv_ts; now apply nth_lt in B]|eapply (i_mv _ _ I); eauto].
    + exists (firstn (length (log s) - P k) (log s)), (oldest (P k) (log s)). split; [apply oldest_split|]. split.
      * intros e K. eapply (i_vw _ _ I); eauto. now apply nth_lt in B.
      * rewrite (i_val _ _ I _ _ B). auto.
  - (* reads another number *)
    destruct H0 as [A B]. exists P. eapply INVP_view; [exact I|reflexivity|reflexivity|reflexivity| |apply (i_pub _ _ I)|reflexivity].
    intros u. cbn. destruct (Nat.eq_dec u t) as [->|N]; [rewrite upd_eq|rewrite upd_ne by auto; apply (i_vw _ _ I)].
    apply okv_join; [apply okv_join; [apply (i_vw _ _ I)|apply okv_ts; now apply nth_lt in B]|eapply (i_mv _ _ I); eauto].
  - (* nobody left, under internal_mutex *)
    subst v. pose proof (okv_join _ _ _ _ (i_vw _ _ I t) (i_lv _ _ I)) as O.
    exists P. eapply INVP_log; [exact I|reflexivity|reflexivity| | |reflexivity|reflexivity|].
    + cbn [lv]. split; [exact O|]. unfold join. cbn [v_ts]. destruct (i_vw _ _ I t) as [A _]. pose proof (i_top _ _ I). lia.
    + intros u. cbn. destruct (Nat.eq_dec u t) as [->|N]; [now rewrite upd_eq|rewrite upd_ne by auto; apply (i_vw _ _ I)].
    + exists [], (log s). split; [reflexivity|]. split; [intros e K; eapply okv_reg; eauto|]. now rewrite (newest _ _ _ _ _ I H1).
  - (* wake *)
    subst v v'. pose proof (newest _ _ _ _ _ I H1) as W. eexists.
    eapply INVP_write with (v := V (length (mem s)) (v_ev (join (vw s t) (lv s)))); [exact I|reflexivity|reflexivity|reflexivity|reflexivity|reflexivity|..]; cbn [m_val log vw pub nexte v_ev].
    + cbn [waiting]. unfold after_wake. destruct all; [lia|now rewrite W].
    + intros e K. destruct (okv_reg _ _ _ _ (okv_join _ _ _ _ (i_vw _ _ I t) (i_lv _ _ I)) K) as (u & K'). exists u. now right.
    + intros u. destruct (Nat.eq_dec u t) as [->|N]; [left; now rewrite upd_eq|right; now rewrite upd_ne].
    + reflexivity.
    + intros u e [K|K]; [discriminate|]. eapply (i_fresh _ _ I); eauto.
    + split; [lia|apply (i_well _ _ I)].
  - exists P. eapply INVP_view; [exact I|reflexivity|reflexivity|reflexivity|apply (i_vw _ _ I)| |reflexivity].
    cbn. intros v [<-|K]; [apply (i_vw _ _ I)|now apply (i_pub _ _ I)].
  - exists P. eapply INVP_view; [exact I|reflexivity|reflexivity|reflexivity| |apply (i_pub _ _ I)|reflexivity].
    intros u. cbn. destruct (Nat.eq_dec u t) as [->|N]; [rewrite upd_eq|rewrite upd_ne by auto; apply (i_vw _ _ I)].
    apply okv_join; [apply (i_vw _ _ I)|now apply (i_pub _ _ I)].
Qed.
Lemma okv0 : forall P, okv P start v0.
Proof. intros P. split; [cbn; lia|]. intros ? ? ? e []. Qed.
Theorem well_reach : forall s, reach s -> wellh (log s).
Proof.
  intros s R. assert (H : exists P, INVP P s).
  { induction R as [|s s' R IH St]; [|eapply INV_step; eauto]. exists (fun _ => 0). constructor; cbn; auto; try easy.
    - intros [|[|k]] m K; try discriminate. now injection K as <-.
    - intros m K. now injection K as <-.
    - intros _. apply okv0.
    - apply okv0.
    - intros [|[|k]] m K; try discriminate. injection K as <-. apply okv0. }
  destruct H as [P I]. apply (i_well _ _ I).
Qed.
Lemma wellh_app : forall l h, wellh (l ++ h) -> wellh h.
Proof. induction l as [|x l IH]; intros h W; auto. apply IH. destruct x as [|? ? []]; cbn in W; tauto. Qed.
Theorem nobody_overlooked : forall s, reach s -> overlooks_nobody (log s).
Proof.
  intros s R l t all saw bf E. pose proof (well_reach _ R) as W. rewrite E in W. apply wellh_app in W. destruct W as [W _]. exact W.
Qed.
Theorem none_surplus : forall s, reach s -> no_surplus (log s).
Proof.
  intros s R l t all saw bf E. pose proof (well_reach _ R) as W. rewrite E in W. apply wellh_app in W. destruct W as [W _]. exact W.
Qed.
Lemma waiting_mid : forall mid old, wellh (mid ++ old) -> (forall t e, In (EReg t e) mid -> reg e old) -> waiting (mid ++ old) <= waiting old.
Proof.
  induction mid as [|x mid IH]; intros old W H; cbn [app]; [lia|]. assert (W' : wellh (mid ++ old)) by (apply (wellh_app [x]); exact W).
  assert (IH' : waiting (mid ++ old) <= waiting old) by (apply IH; [auto|intros; eapply H; right; eauto]).
  destruct x as [t e|t all [] saw]; cbn [waiting].
  - exfalso. destruct W as [W _]. apply W. destruct (H t e (or_introl eq_refl)) as (u & K). exists u. apply in_or_app. auto.
  - destruct all; lia.
  - exact IH'.
Qed.
Theorem known_woken : forall s, reach s -> wakes_if_all_known (log s).
Proof.
  intros s R l t all woke saw bf E K N. destruct woke; auto. exfalso. pose proof (well_reach _ R) as W. rewrite E in W. apply wellh_app in W.
  destruct W as [(mid & old & Eb & S1 & S2) W]. subst bf. pose proof (waiting_mid mid old W) as L.
  assert (1 <= 0); [|lia]. rewrite <- S2 at 2. etransitivity; [exact N|]. apply L. intros u e H. destruct (S1 e) as (v & K'); [eapply K; apply in_or_app; eauto|now exists v].
Qed.
