(** * The Windows shared_mutex under release/acquire memory: try_lock() of an unused mutex (proofs) *)
From Verif Require Import WS_Errors XV_Model XV_Spec XV_Base XV_Proofs.

(** Whoever wrote the newest write is past it. *)
Lemma top_seen : forall n s, reaches n s -> exists u m0 r, mem s = m0 :: r /\ m_ts m0 <= v_ts (vw s u).
Proof.
  intros n s H. induction H as [|s s' H IH St]; [exists 0; cbn; do 2 eexists; split; [reflexivity|cbn; lia]|].
  destruct IH as (u & m0 & r & EM & L).
  destruct St; cbn [mem vw];
    try (exists u, m0, r; split; [exact EM|]; first [exact L|unfold upd; destruct (u =? t) eqn:K; [apply Nat.eqb_eq in K; subst u|exact L]; cbn; lia]; fail).
  exists t. do 2 eexists. split; [reflexivity|]. rewrite upd_eq. subst v. cbn. lia.
Qed.
Lemma calling_app : forall t n h, t <> n -> calling t (h ++ [ECall n Lock]) = calling t h.
Proof.
  intros t n h N. induction h as [|[u o|u o r] h IH]; cbn.
  - destruct (Nat.eqb_spec n t); congruence.
  - now rewrite IH.
  - now rewrite IH.
Qed.
(** In an unused mutex every thread is idle, and the word is free. *)
Lemma unused_idle : forall n s, reaches n s -> unused s -> forall u x, nth_error (thrs (base s)) u = Some x -> x = Thr PIdle MNone.
Proof.
  intros n s R U u x Hx. pose proof (i_base _ (INV_reaches _ _ R)) as I.
  assert (L : u < length (thrs (base s))) by (apply nth_error_Some; congruence).
  assert (Hx' : nth_error (thrs (dummy (base s))) u = Some x) by (cbn [dummy thrs]; rewrite nth_error_app1; auto).
  destruct (i_hist I u Hx') as [A B]. cbn [dummy hist] in A, B. rewrite calling_app in A by lia. rewrite holds_app in B by lia.
  destruct (U u) as [U1 U2]. rewrite U2 in A. rewrite U1 in B. rewrite <- A in B.
  destruct x as [p m]. cbn [t_pc t_own] in *. pose proof (i_thr I u Hx') as T. unfold thr_ok in T. cbn [t_pc t_own] in T.
  destruct p; try discriminate A. destruct m; try discriminate B; easy.
Qed.
Lemma total_zero : forall f l, (forall u x, nth_error l u = Some x -> f x = 0) -> total f l = 0.
Proof. intros f. induction l as [|z l IH]; intros H; cbn; [reflexivity|]. rewrite (H 0 z eq_refl), IH; [reflexivity|]. intros u x. apply (H (S u) x). Qed.
Lemma unused_word : forall n s, reaches n s -> unused s -> sc (wd (base s)) = 0 /\ ex (wd (base s)) = false.
Proof.
  intros n s R U. pose proof (unused_idle _ _ R U) as Id. destruct (phase (i_base _ (INV_reaches _ _ R))) as [P1 P2].
  assert (Z : forall f, f (Thr PIdle MNone) = 0 -> total f (thrs (base s)) = 0) by (intros f Hf; apply total_zero; intros u x Hx; now rewrite (Id u x Hx)).
  rewrite (Z cS eq_refl), (Z cU eq_refl), (Z cP eq_refl), (Z cX eq_refl), (Z dP eq_refl) in *. split; [lia|].
  destruct (ex (wd (base s))), (up (wd (base s))); auto; try easy; lia.
Qed.
Lemma cons_ne : forall A (x : A) l, l <> x :: l.
Proof. intros A x l E. apply (f_equal (@length A)) in E. cbn in E. lia. Qed.
(** A step of one thread's run keeps the history or adds a return of that thread. *)
Lemma run_hist : forall b t b', exec b (LRun t) = Some b' -> hist b' = hist b \/ exists o r, hist b' = ERet t o r :: hist b.
Proof.
  intros b t b' H. destruct (exec_inv _ _ H) as (x & Hx & R). unfold run, ret, goto, put in R.
  destruct (t_pc x); repeat match type of R with context [match ?b with _ => _ end] => destruct b end; try discriminate; injection R as <-; cbn; eauto.
Qed.
Definition who (l : label) : nat := match l with LCall t _ | LRun t | LTimeout t => t end.
Lemma exec_other : forall b l b' t, exec b l = Some b' -> who l <> t -> nth_error (thrs b') t = nth_error (thrs b) t.
Proof.
  intros b l b' t H N. destruct l as [t0 o|t0|t0]; cbn in H, N; destruct (nth_error (thrs b) t0) as [x|]; try discriminate.
  - unfold call, put in H. destruct (t_pc x); try discriminate. destruct (mode_eqb _ _); try discriminate. injection H as <-. now apply nth_set_other.
  - unfold run, ret, goto, put in H. destruct (t_pc x); repeat match type of H with context [match ?b with _ => _ end] => destruct b end; try discriminate; injection H as <-; now apply nth_set_other.
  - unfold time_out, goto, put in H. destruct (t_pc x); try discriminate. destruct (is_timed o); try discriminate. injection H as <-. now apply nth_set_other.
Qed.
Lemma late_hist : forall b t b', exec b (LTimeout t) = Some b' -> hist b' = hist b.
Proof.
  intros b t b' H. cbn in H. destruct (nth_error (thrs b) t) as [x|]; try discriminate.
  unfold time_out, goto, put in H. destruct (t_pc x); try discriminate. destruct (is_timed o); try discriminate. now injection H as <-.
Qed.
Lemma call_hist : forall b t o b', exec b (LCall t o) = Some b' -> hist b' = ECall t o :: hist b.
Proof.
  intros b t o b' H. cbn in H. destruct (nth_error (thrs b) t) as [x|]; try discriminate.
  unfold call, put in H. destruct (t_pc x); try discriminate. destruct (mode_eqb _ _); try discriminate. now injection H as <-.
Qed.

Lemma try_call : forall s s1 t o, step s s1 -> hist (base s1) = ECall t o :: hist (base s) ->
  exec (base s) (LCall t o) = Some (base s1) /\ mem s1 = mem s /\ vw s1 = vw s.
Proof.
  intros s s1 t o St H. destruct St; cbn [base mem vw] in *.
  - pose proof (call_hist _ _ _ _ H0) as E. rewrite E in H. injection H as -> ->. auto.
  - rewrite (late_hist _ _ _ H0) in H. now apply cons_ne in H.
  - now apply cons_ne in H.
  - now apply cons_ne in H.
  - destruct (run_hist _ _ _ H2) as [E|(o' & r & E)]; rewrite E in H; [now apply cons_ne in H|discriminate].
  - cbn [with_wd hist] in H. destruct (run_hist _ _ _ H3) as [E|(o' & r & E)]; cbn [with_wd hist] in E; rewrite E in H; [now apply cons_ne in H|discriminate].
  - cbn [with_wd hist] in H. destruct (run_hist _ _ _ H4) as [E|(o' & r & E)]; cbn [with_wd hist] in E; rewrite E in H; [now apply cons_ne in H|discriminate].
  - destruct (run_hist _ _ _ H5) as [E|(o' & r & E)]; cbn [with_wd hist] in E; rewrite E in H; [now apply cons_ne in H|discriminate].
  - destruct (run_hist _ _ _ H2) as [E|(o' & r & E)]; rewrite E in H; [now apply cons_ne in H|discriminate].
  - destruct (run_hist _ _ _ H2) as [E|(o' & r & E)]; rewrite E in H; [now apply cons_ne in H|discriminate].
Qed.
Lemma try_read : forall s s2 t o k, step s s2 -> nth_error (thrs (base s)) t = Some (Thr (PRead o) k) ->
  nth_error (thrs (base s2)) t = Some (Thr (PRead o) k) \/
  exists m, reads (mem s) (vw s t) m /\ nth_error (thrs (base s2)) t = Some (Thr (PCas o (m_val m)) k).
Proof.
  intros s s2 t o k St Ht. destruct St; cbn [base with_wd thrs] in *; auto;
    (destruct (Nat.eq_dec t0 t) as [->|N];
     [|left; rewrite <- Ht; match goal with
       | H : exec (with_wd (base s) ?w) ?l = Some _ |- _ => exact (exec_other _ _ _ t H N)
       | H : exec (base s) ?l = Some _ |- _ => exact (exec_other _ _ _ t H N) end]).
  - cbn in H. rewrite Ht in H. discriminate.
  - cbn in H. rewrite Ht in H. discriminate.
  - rewrite Ht in H. injection H as <-. discriminate.
  - right. exists m. split; [auto|]. rewrite Ht in H. injection H as <-. cbn in H2. rewrite Ht in H2. unfold run in H2. cbn [t_pc t_own] in H2.
    unfold goto, put in H2. injection H2 as <-. cbn [thrs]. apply (nth_set_same _ _ _ Ht).
  - rewrite Ht in H. injection H as <-. discriminate.
  - rewrite Ht in H. injection H as <-. discriminate.
  - rewrite Ht in H. injection H as <-. discriminate.
  - rewrite Ht in H. injection H as <-. discriminate.
Qed.
Lemma try_ret : forall s s' t o r, step s s' -> hist (base s') = ERet t o r :: hist (base s) ->
  exists w b' x, nth_error (thrs (base s)) t = Some x /\ run (with_wd (base s) w) t x = Some b' /\ hist b' = ERet t o r :: hist (base s).
Proof.
  intros s s' t o r St H.
  assert (K : forall w t0 b', exec (with_wd (base s) w) (LRun t0) = Some b' -> hist b' = ERet t o r :: hist (base s) ->
    exists w b' x, nth_error (thrs (base s)) t = Some x /\ run (with_wd (base s) w) t x = Some b' /\ hist b' = ERet t o r :: hist (base s)).
  { intros w t0 b' E Q. destruct (run_hist _ _ _ E) as [E'|(o' & r' & E')]; rewrite E' in Q; cbn [with_wd hist] in Q; [now apply cons_ne in Q|].
    injection Q as -> -> ->. destruct (exec_inv _ _ E) as (x & Hx & R). exists w, b', x. auto. }
  destruct St; cbn [base mem vw] in *.
  - rewrite (call_hist _ _ _ _ H0) in H. discriminate.
  - rewrite (late_hist _ _ _ H0) in H. now apply cons_ne in H.
  - now apply cons_ne in H.
  - now apply cons_ne in H.
  - rewrite <- (with_wd_id (base s)) in H2. eapply K; eauto.
  - eapply K; eauto.
  - eapply K; eauto.
  - eapply K; eauto.
  - rewrite <- (with_wd_id (base s)) in H2. eapply K; eauto.
  - rewrite <- (with_wd_id (base s)) in H2. eapply K; eauto.
Qed.
Lemma try_synchronised : forall n s t r s', reaches n s -> unused s -> synchronised s t -> tries s t r s' -> r = true.
Proof.
  intros n s t r s' R U Sy (s1 & s2 & St1 & St2 & St3 & E1 & E2 & E3).
  destruct (try_call _ _ _ _ St1 E1) as (C & M & V). destruct (unused_word _ _ R U) as [Wc We].
  assert (Hx : nth_error (thrs (base s1)) t = Some (Thr (PRead TryLock) MNone)).
  { cbn in C. destruct (nth_error (thrs (base s)) t) as [x|] eqn:Hx; [|discriminate]. rewrite (unused_idle _ _ R U _ _ Hx) in C. unfold call, put in C. cbn in C.
    injection C as C. rewrite <- C. cbn [thrs]. apply (nth_set_same _ _ _ Hx). }
  destruct (try_ret _ _ _ _ _ St3 E3) as (w & b' & x & Hx2 & Rn & Eh).
  destruct (try_read _ _ _ _ _ St2 Hx) as [Hx'|(m & [Hm L] & Hx')]; rewrite Hx' in Hx2; injection Hx2 as <-.
  - unfold run in Rn. cbn [t_pc] in Rn. unfold goto, put in Rn. injection Rn as <-. cbn [hist with_wd app] in Eh. now apply cons_ne in Eh.
  - destruct (INV_reaches _ _ R) as [_ IG (m0 & q & EM & Ew & _) _ _]. rewrite M, EM in Hm. rewrite EM in IG. rewrite V in L.
    assert (m = m0).
    { destruct (top_seen _ _ R) as (u & m0' & q' & EM' & L'). rewrite EM in EM'. injection EM' as <- <-. specialize (Sy u).
      destruct Hm as [->|Hm]; auto. exfalso. destruct IG as [T G]. pose proof (gapless_lt _ _ G Hm). lia. }
    subst m. rewrite Ew in *. unfold run in Rn. cbn [t_pc t_own body_of] in Rn. rewrite Wc, We in Rn. cbn in Rn.
    match type of Rn with context [if ?b then _ else _] => destruct b end; unfold ret, goto, put in Rn; injection Rn as <-; cbn [hist with_wd app] in Eh.
    + now injection Eh as <-.
    + now apply cons_ne in Eh.
Qed.
