From Verif Require Export CA_Spec.
Set Implicit Arguments.

Lemma upd_eq A (f : nat -> A) t x : upd f t x t = x. Proof. unfold upd. now rewrite Nat.eqb_refl. Qed.
Lemma upd_neq A (f : nat -> A) t x u : u <> t -> upd f t x u = f u. Proof. intros H. unfold upd. apply Nat.eqb_neq in H. now rewrite H. Qed.

Definition num (p : pc) : option nat :=
  match p with
  | Idle => None
  | WEnter _ n | WHold _ n | WThrow _ n | WGo _ n | WSleep _ n | WWoken _ n | WDrop _ n | WRelock _ n | WAgain _ n => Some n
  | NEnter _ n | NHold _ n | NLeave _ n => Some n
  end.
Definition holds (p : pc) : bool :=
  match p with WHold _ _ | WThrow _ _ | WGo _ _ | WDrop _ _ | NHold _ _ | NLeave _ _ => true | _ => false end.
Definition early (p : pc) : option (nat * nat) := match p with WEnter m n | WHold m n | WThrow m n => Some (m, n) | _ => None end.
Definition late (p : pc) : option (nat * nat) :=
  match p with WGo m n | WSleep m n | WWoken m n | WDrop m n | WRelock m n | WAgain m n => Some (m, n) | _ => None end.
Definition resting (p : pc) : option (nat * nat) := match p with WGo m n | WSleep m n => Some (m, n) | _ => None end.
Definition enum (e : event) : option nat :=
  match e with
  | EWait _ _ n | EReleased _ _ n | EReturn _ _ n | ENotOwned _ _ n | EFailed _ _ n | ENotify _ _ n | EWoke n _ _ | ENotified _ _ n => Some n
  | _ => None
  end.

Ltac nat_cases :=
  repeat match goal with
  | |- context [upd _ ?a _ ?b] => unfold upd
  | H : context [upd _ ?a _ ?b] |- _ => unfold upd in H
  end;
  repeat match goal with
  | |- context [?a =? ?b] => destruct (Nat.eqb_spec a b); try subst
  | H : context [?a =? ?b] |- _ => destruct (Nat.eqb_spec a b); try subst
  end.

Ltac at_pc s t := match goal with E : pcs s t = _ |- _ => rewrite E end.
Ltac at_pc_in s t H := match goal with E : pcs s t = _ |- _ => rewrite E in H end.

Lemma wake_num p : num (wake p) = num p. Proof. destruct p; reflexivity. Qed.
Lemma wake_holds p : holds (wake p) = holds p. Proof. destruct p; reflexivity. Qed.
Lemma wake_early p : early (wake p) = early p. Proof. destruct p; reflexivity. Qed.
Lemma wake_late p : late (wake p) = late p. Proof. destruct p; reflexivity. Qed.

(** ** The internal mutex *)
Lemma own_inv s : reach s -> forall t, holds (pcs s t) = true <-> iown s = Some t.
Proof.
  induction 1 as [|s l s' _ IH _ _ Hs]; [intros t; cbn; split; discriminate|]. intros u. pose proof (IH u) as IHu.
  inversion Hs; subst; unfold touch; try (destruct (alive s); [|exact IHu]); cbn in *; auto; unfold upd;
    destruct (Nat.eqb_spec u t) as [->|Hne]; cbn; rewrite ?wake_holds; auto;
    try (at_pc_in s t IHu; cbn in IHu);
    try (pose proof (IH t) as IHt; at_pc_in s t IHt; cbn in IHt);
    try match goal with E : iown s = None |- _ => rewrite E in * end;
    try (split; intros; try discriminate; try congruence; tauto).
  all: try (split; intros X; [|congruence]; exfalso; assert (iown s = Some u) by tauto; assert (iown s = Some t) by tauto; congruence).
  all: try (split; intros X; [exfalso; assert (iown s = Some u) by tauto; assert (iown s = Some t) by tauto; congruence|discriminate]).
  1-3: split; intros X; [apply IHu in X; discriminate|congruence].
  (* signal *)
  destruct (Nat.eqb_spec u w) as [->|Hw]; cbn; rewrite ?wake_holds; auto.
Qed.

(** ** Numbers of calls *)
Lemma num_inv s : reach s -> forall t n, num (pcs s t) = Some n -> n < calls s.
Proof.
  induction 1 as [|s l s' _ IH _ _ Hs]; [intros t n; cbn; discriminate|]. intros u k.
  inversion Hs; subst; unfold touch; try (destruct (alive s); [|exact (IH u k)]); cbn in *; try exact (IH u k); unfold upd;
    try (destruct (Nat.eqb_spec u t) as [->|Hne]; cbn; rewrite ?wake_num; intros X;
         try (injection X as <-); try discriminate; try lia; try (apply IH in X; lia);
         try (eapply (IH t); at_pc s t; reflexivity)).
  destruct (Nat.eqb_spec u w) as [->|Hw]; cbn in *; rewrite ?wake_num in *; apply IH in X; auto.
Qed.
Lemma uniq_inv s : reach s -> forall t u n, num (pcs s t) = Some n -> num (pcs s u) = Some n -> t = u.
Proof.
  induction 1 as [|s l s' Hr IH _ _ Hs]; [intros t u n; cbn; discriminate|]. pose proof (num_inv Hr) as Hn. intros a b k.
  assert (G : forall (t : nat) p, (num p = num (pcs s t) \/ num p = None \/ num p = Some (calls s)) ->
    num (upd (pcs s) t p a) = Some k -> num (upd (pcs s) t p b) = Some k -> a = b).
  { intros t p Hp. unfold upd. destruct (Nat.eqb_spec a t) as [->|Ha], (Nat.eqb_spec b t) as [->|Hb]; auto.
    - intros X Y. destruct Hp as [Hp|[Hp|Hp]]; rewrite Hp in X; [eapply IH; eauto|discriminate|]. injection X as <-. apply Hn in Y. lia.
    - intros Y X. destruct Hp as [Hp|[Hp|Hp]]; rewrite Hp in X; [eapply IH; eauto|discriminate|]. injection X as <-. apply Hn in Y. lia.
    - apply IH. }
  inversion Hs; subst; unfold touch; try (destruct (alive s); [|exact (IH a b k)]); cbn in *; try exact (IH a b k);
    try (apply G; at_pc s t; cbn; auto).
  - (* broadcast *)
    intros X Y. apply (IH a b k); [revert X|revert Y]; unfold upd.
    + destruct (Nat.eqb_spec a t) as [->|Ha]; rewrite ?wake_num; try (at_pc s t); auto.
    + destruct (Nat.eqb_spec b t) as [->|Ha]; rewrite ?wake_num; try (at_pc s t); auto.
  - (* signal *)
    assert (F : forall x, num (upd (upd (pcs s) w (wake (pcs s w))) t (NLeave false n) x) = num (pcs s x)).
    { intros x. unfold upd. destruct (Nat.eqb_spec x t) as [->|Hx]; [at_pc s t; reflexivity|].
      destruct (Nat.eqb_spec x w) as [->|Hw]; [apply wake_num|reflexivity]. }
    rewrite !F. apply IH.
Qed.
Lemma enum_inv s : reach s -> forall e n, In e (hist s) -> enum e = Some n -> n < calls s.
Proof.
  induction 1 as [|s l s' Hr IH _ _ Hs]; [intros e n []|]. pose proof (num_inv Hr) as Hn. intros e k.
  inversion Hs; subst; unfold touch; try (destruct (alive s); [|exact (IH e k)]); cbn in *; try exact (IH e k);
    (intros [<-|Hin] X; [cbn in X|eapply IH in Hin; eauto; lia]); try discriminate; injection X as <-; try lia;
    try (eapply (Hn t); at_pc s t; reflexivity).
Qed.

Definition ended (n : nat) (s : st) : bool := existsb (ends n) (hist s).
Lemma ends_num n e : ends n e = true -> enum e = Some n.
Proof. destruct e; cbn; try discriminate; intros H; apply Nat.eqb_eq in H; congruence. Qed.
Lemma ended_fresh s : reach s -> ended (calls s) s = false.
Proof.
  intros Hr. destruct (ended (calls s) s) eqn:E; auto. exfalso. apply existsb_exists in E as (e & Hin & He). apply ends_num in He. pose proof (enum_inv Hr _ Hin He). lia.
Qed.
Lemma open_inv s : reach s -> forall t n, num (pcs s t) = Some n -> ended n s = false.
Proof.
  induction 1 as [|s l s' Hr IH _ _ Hs]; [intros t n; cbn; discriminate|]. pose proof (ended_fresh Hr) as Hf. pose proof (uniq_inv Hr) as Hu. intros u k.
  inversion Hs; subst; unfold touch; try (destruct (alive s); [|exact (IH u k)]); unfold ended in *; cbn in *; try exact (IH u k); unfold upd;
    try (destruct (Nat.eqb_spec u t) as [->|Hne]; cbn; rewrite ?wake_num; intros X; try discriminate;
      try (injection X as <-; auto; fail); eauto;
      try (injection X as <-; eapply (IH t); at_pc s t; reflexivity);
      try (rewrite (IH _ _ X), orb_false_r; apply Nat.eqb_neq; intros <-; apply Hne; apply (Hu _ _ _ X); at_pc s t; reflexivity)).
  destruct (Nat.eqb_spec u w) as [->|Hw]; cbn in *; rewrite ?wake_num in *; eauto.
Qed.

Lemma early_num p m n : early p = Some (m, n) -> num p = Some n. Proof. destruct p; cbn; congruence. Qed.
Lemma late_num p m n : late p = Some (m, n) -> num p = Some n. Proof. destruct p; cbn; congruence. Qed.
Lemma resting_late p m n : resting p = Some (m, n) -> late p = Some (m, n). Proof. destruct p; cbn; congruence. Qed.

Lemma early_inv s : reach s -> forall t m n, early (pcs s t) = Some (m, n) -> In (EWait t m n) (hist s) /\ forall t' m', ~ In (EReleased t' m' n) (hist s).
Proof.
  induction 1 as [|s l s' Hr IH _ _ Hs]; [intros t m n; cbn; discriminate|]. pose proof (uniq_inv Hr) as Hu. pose proof (enum_inv Hr) as He. intros u a k.
  assert (G : forall e, early (pcs s u) = Some (a, k) -> (forall t' m', e <> EReleased t' m' k) ->
    (e = EWait u a k \/ In (EWait u a k) (hist s)) /\ forall t' m', ~ (e = EReleased t' m' k \/ In (EReleased t' m' k) (hist s))).
  { intros e H Hne. destruct (IH _ _ _ H) as [A B]. split; [auto|]. intros t' m' [X|X]; [exact (Hne _ _ X)|exact (B _ _ X)]. }
  inversion Hs; subst; unfold touch; try (destruct (alive s); [|exact (IH u a k)]); cbn in *; try exact (IH u a k); unfold upd;
    try (intros X; apply G; [exact X|discriminate]);
    try (destruct (Nat.eqb_spec u t) as [->|Hne]; cbn; rewrite ?wake_early; intros X; try discriminate;
      try (apply G; [exact X|discriminate]); auto;
      try (injection X as <- <-; try (apply IH; at_pc s t; reflexivity))).
  - split; [auto|]. intros t' m' [Y|Y]; [discriminate|]. pose proof (He _ _ Y eq_refl). lia.
  - apply G; [exact X|]. intros t' m' [= <- <- <-]. apply Hne. eapply Hu; [eapply early_num; exact X|]. at_pc s t; reflexivity.
  - destruct (Nat.eqb_spec u w) as [->|Hw]; cbn in *; rewrite ?wake_early in *; apply G; try exact X; discriminate.
Qed.
Lemma late_inv s : reach s -> forall t m n, late (pcs s t) = Some (m, n) -> In (EReleased t m n) (hist s).
Proof.
  induction 1 as [|s l s' Hr IH _ _ Hs]; [intros t m n; cbn; discriminate|]. intros u a k.
  inversion Hs; subst; unfold touch; try (destruct (alive s); [|exact (IH u a k)]); cbn in *; try exact (IH u a k); unfold upd;
    try (destruct (Nat.eqb_spec u t) as [->|Hne]; cbn; rewrite ?wake_late; intros X; try discriminate; auto;
      try (injection X as <- <-; auto; try right; try (apply IH; at_pc s t; reflexivity))).
  destruct (Nat.eqb_spec u w) as [->|Hw]; cbn in *; rewrite ?wake_late in *; right; eauto.
Qed.

(** ** The user's mutexes *)
Lemma throw_inv s : reach s -> forall t m n, pcs s t = WThrow m n -> mown s m <> Some t.
Proof.
  induction 1 as [|s l s' Hr IH _ _ Hs]; [intros t m n; cbn; discriminate|]. intros u a k.
  inversion Hs; subst; unfold touch; try (destruct (alive s); [|exact (IH u a k)]); cbn in *; try exact (IH u a k); unfold upd;
    try (destruct (Nat.eqb_spec u t) as [->|Hne]; cbn; intros X; try congruence; try (injection X as <- <-; auto; fail); eauto;
      try (specialize (IH _ _ _ X)); try (destruct (Nat.eqb_spec a m); congruence)).
  - apply IH with (n := k). destruct (pcs s u); cbn in X; congruence.
  - destruct (Nat.eqb_spec u w) as [->|Hw]; [|eauto]. apply IH with (n := k). destruct (pcs s w); cbn in X; congruence.
Qed.
Lemma lock_inv s : reach s -> (forall m, mown s m = owner (hist s) m).
Proof.
  induction 1 as [|s l s' Hr IH _ _ Hs]; [reflexivity|]. intros a.
  inversion Hs; subst; unfold touch; try (destruct (alive s); [|exact (IH a)]); cbn in *; auto; unfold upd; rewrite (Nat.eqb_sym m a); destruct (a =? m); auto.
Qed.
Lemma late_free s : reach s -> forall t m n, late (pcs s t) = Some (m, n) -> mown s m <> Some t.
Proof.
  induction 1 as [|s l s' Hr IH _ _ Hs]; [intros t m n; cbn; discriminate|]. intros u a k.
  inversion Hs; subst; unfold touch; try (destruct (alive s); [|exact (IH u a k)]); cbn in *; try exact (IH u a k); unfold upd;
    try (destruct (Nat.eqb_spec u t) as [->|Hne]; cbn; rewrite ?wake_late; intros X; try discriminate;
      try (injection X as <- <-); try (eapply IH; at_pc s t; reflexivity); eauto).
  all: try (destruct (Nat.eqb_spec a m) as [->|]; [congruence|eauto]; fail).
  all: try (at_pc_in s t X; discriminate).
  - rewrite Nat.eqb_refl. discriminate.
  - destruct (Nat.eqb_spec u w) as [->|Hw]; cbn in *; rewrite ?wake_late in *; eauto.
Qed.

(** ** Notifications *)
Definition notifies (p : pc) : option (bool * nat) := match p with NEnter a n | NHold a n | NLeave a n => Some (a, n) | _ => None end.
Lemma wake_notifies p : notifies (wake p) = notifies p. Proof. destruct p; reflexivity. Qed.
Lemma notifies_num p a n : notifies p = Some (a, n) -> num p = Some n. Proof. destruct p; cbn; congruence. Qed.
Lemma notifies_inv s : reach s -> forall t a n, notifies (pcs s t) = Some (a, n) -> In (ENotify t a n) (hist s) /\ forall t' a', ~ In (ENotified t' a' n) (hist s).
Proof.
  induction 1 as [|s l s' Hr IH _ _ Hs]; [intros t m n; cbn; discriminate|]. pose proof (uniq_inv Hr) as Hu. pose proof (enum_inv Hr) as He. intros u a k.
  assert (G : forall e, notifies (pcs s u) = Some (a, k) -> (forall t' a', e <> ENotified t' a' k) ->
    (e = ENotify u a k \/ In (ENotify u a k) (hist s)) /\ forall t' a', ~ (e = ENotified t' a' k \/ In (ENotified t' a' k) (hist s))).
  { intros e H Hne. destruct (IH _ _ _ H) as [A B]. split; [auto|]. intros t' a' [X|X]; [exact (Hne _ _ X)|exact (B _ _ X)]. }
  inversion Hs; subst; unfold touch; try (destruct (alive s); [|exact (IH u a k)]); cbn in *; try exact (IH u a k); unfold upd;
    try (intros X; apply G; [exact X|discriminate]);
    try (destruct (Nat.eqb_spec u t) as [->|Hne]; cbn; rewrite ?wake_notifies; intros X; try discriminate;
      try (apply G; [exact X|discriminate]); auto;
      try (injection X as <- <-; try (apply IH; at_pc s t; reflexivity))).
  - split; [auto|]. intros t' m' [Y|Y]; [discriminate|]. pose proof (He _ _ Y eq_refl). lia.
  - apply G; [at_pc s t; reflexivity|discriminate].
  - destruct (Nat.eqb_spec u w) as [->|Hw]; cbn in *; rewrite ?wake_notifies in *; apply G; try exact X; discriminate.
  - apply G; [exact X|]. intros t' m' [= <- <- <-]. apply Hne. eapply Hu; [eapply notifies_num; exact X|]. at_pc s t; reflexivity.
Qed.

Lemma before_cons e h a b : before (e :: h) a b <-> before h a b \/ (e = b /\ In a h).
Proof.
  split.
  - intros (h1 & h2 & [|x h3] & H); injection H as -> H.
    + right. split; auto. rewrite H. apply in_or_app. right. now left.
    + left. exists h1, h2, h3. auto.
  - intros [(h1 & h2 & h3 & ->)|[-> H]]; [exists h1, h2, (e :: h3); reflexivity|].
    apply in_split in H as (x & y & ->). exists y, x, []. reflexivity.
Qed.
Lemma before_in h a b : before h a b -> In a h /\ In b h.
Proof. intros (h1 & h2 & h3 & ->). split; apply in_or_app; right; cbn; auto. right. apply in_or_app. right. now left. Qed.

Lemma legal_inv s : reach s -> forall h1 e h2, hist s = h2 ++ e :: h1 -> legal e h1.
Proof.
  induction 1 as [|s l s' Hr IH _ _ Hs]; [intros h1 e h2; cbn; destruct h2; discriminate|].
  assert (G : forall e0, legal e0 (hist s) -> forall h1 e h2, e0 :: hist s = h2 ++ e :: h1 -> legal e h1).
  { intros e0 H0 h1 e [|x h2] X; injection X as -> X; [now rewrite <- X|]. eapply IH. exact X. }
  pose proof (lock_inv Hr) as Hl. pose proof (early_inv Hr) as Hea. pose proof (late_inv Hr) as Hla. pose proof (open_inv Hr) as Ho. pose proof (throw_inv Hr) as Ht. pose proof (notifies_inv Hr) as Hn.
  inversion Hs; subst; unfold touch; try (destruct (alive s); [|exact IH]); cbn in *; auto; apply G; cbn; auto.
  - now rewrite <- Hl.
  - now rewrite <- Hl.
  - rewrite <- Hl. split; [assumption|]. destruct (Hea t m n) as [A B]; [at_pc s t; reflexivity|]. auto.
  - rewrite <- Hl. split; [eapply Ht; eauto|]. destruct (Hea t m n) as [A B]; [at_pc s t; reflexivity|].
    split; [exact A|]. split; [apply B|]. eapply (Ho t). at_pc s t; reflexivity.
  - rewrite <- Hl. split; [assumption|]. split; [apply Hla; at_pc s t; reflexivity|].
    eapply (Ho t). at_pc s t; reflexivity.
  - rewrite <- Hl. split; [assumption|]. split; [apply Hla; at_pc s t; reflexivity|].
    eapply (Ho t). at_pc s t; reflexivity.
  - match goal with H : sleeper _ _ |- _ => destruct H as [m E] end.
    split; [exists m; apply Hla; rewrite E; reflexivity|]. split; [eapply (Ho w); rewrite E; reflexivity|].
    exists t. destruct (Hn t false n) as [A B]; [at_pc s t; reflexivity|]. auto.
  - destruct (Hn t all n) as [A B]; [at_pc s t; reflexivity|]. auto.
Qed.

(** A call of notify that is over, or has done its part. *)
Definition told (s : st) (u : nat) (a : bool) (k : nat) : Prop := pcs s u = NLeave a k \/ In (ENotified u a k) (hist s).
Definition spent (s : st) (a : bool) (k : nat) : Prop := a = false /\ exists w j, In (EWoke k w j) (hist s).
Lemma told_num s u a k : reach s -> told s u a k -> k < calls s.
Proof.
  intros Hr [H|H]; [apply (num_inv Hr u); rewrite H; reflexivity|exact (enum_inv Hr _ H eq_refl)].
Qed.
Lemma rest_step s l s' r p n : step s l s' -> resting (pcs s' r) = Some (p, n) -> resting (pcs s r) = Some (p, n) \/ pcs s r = WHold p n.
Proof.
  intros Hs. inversion Hs; subst; unfold touch; try (destruct (alive s); [|auto]); cbn; auto; unfold upd;
    destruct (Nat.eqb_spec r t) as [->|Hne]; cbn; intros X; auto; try discriminate;
    try (injection X as <- <-; at_pc s t; auto; fail);
    try (destruct (Nat.eqb_spec r w) as [->|Hw]; auto);
    try (revert X; match goal with |- resting (wake ?q) = _ -> _ => destruct q; cbn; auto; discriminate end).
Qed.
Lemma told_step s l s' u a k : step s l s' -> told s' u a k -> told s u a k \/
  pcs s u = NHold a k /\ pcs s' u = NLeave a k /\ (spent s' a k \/ forall r, is_asleep (pcs s' r) = false).
Proof.
  intros Hs. unfold told. inversion Hs; subst; unfold touch; try (destruct (alive s); [|auto]); cbn; auto; unfold upd;
    (intros [X|X]; [|try (destruct X as [X|X]; [try discriminate|]); auto]);
    try (destruct (Nat.eqb_spec u t) as [->|Hne]; [try discriminate|]); auto;
    try (left; left; revert X; match goal with |- wake ?q = _ -> _ => destruct q; cbn; auto; discriminate end).
  - injection X as <- <-. right. rewrite ?Nat.eqb_refl. repeat split; auto. right. intros r. destruct (r =? t); auto. destruct (pcs s r); reflexivity.
  - injection X as <- <-. right. rewrite ?Nat.eqb_refl. repeat split; auto. left. split; auto. exists w, k0. now left.
  - destruct (Nat.eqb_spec u w) as [->|Hw]; auto. left; left. revert X. destruct (pcs s w); cbn; auto; discriminate.
  - injection X as <- <-. right. rewrite ?Nat.eqb_refl. repeat split; auto. right. intros r. destruct (r =? t); auto.
  - injection X as <- <-. auto.
  - congruence.
Qed.
Lemma hist_step s l s' : step s l s' -> exists q, hist s' = q ++ hist s /\ forall A u a k, before (hist s') A (ENotify u a k) -> before (hist s) A (ENotify u a k) \/ k = calls s.
Proof.
  intros Hs.
  inversion Hs; subst; unfold touch; try (destruct (alive s); [|exists []; split; [reflexivity|intros; left; assumption]]);
    try (exists []; split; [reflexivity|intros; left; assumption]); cbn; match goal with |- context [?e :: hist s] => exists [e] end; (split; [reflexivity|]);
    intros A0 u0 a0 k0 HB; apply before_cons in HB as [HB|[HE HB]]; auto; try discriminate.
  injection HE as _ _ <-. auto.
Qed.
Lemma told_inv s : reach s -> forall t m n u a k, resting (pcs s t) = Some (m, n) -> told s u a k ->
  before (hist s) (EReleased t m n) (ENotify u a k) -> spent s a k.
Proof.
  induction 1 as [|s l s' Hr IH Hub Hd Hs]; [intros t m n u a k; cbn; discriminate|].
  intros r p n u a k HR HT HB.
  assert (Hr' : reach s') by (econstructor; eauto).
  destruct (hist_step Hs) as (q & Hq & Hb). specialize (Hb _ _ _ _ HB).
  assert (Hk : k < calls s).
  { destruct (told_step Hs HT) as [H|(H & _)]; [exact (told_num Hr H)|]. apply (num_inv Hr u). now rewrite H. }
  destruct Hb as [Hb|Hb]; [|lia].
  destruct (rest_step _ Hs HR) as [HR0|HR0].
  - destruct (told_step Hs HT) as [H|(H & H' & [S|S])]; [|exact S|].
    + destruct (IH _ _ _ _ _ _ HR0 H Hb) as (A & w & j & B). split; auto. exists w, j. rewrite Hq. apply in_or_app. auto.
    + exfalso. assert (G : pcs s' r = WGo p n).
      { specialize (S r). revert HR S. destruct (pcs s' r); cbn; intros; congruence. }
      pose proof (proj1 (own_inv Hr' r)) as A. rewrite G in A. specialize (A eq_refl).
      pose proof (proj1 (own_inv Hr' u)) as B. rewrite H' in B. specialize (B eq_refl). congruence.
  - exfalso. destruct (@early_inv s Hr r p n) as [_ A]; [now rewrite HR0|]. apply before_in in Hb as [Hb _]. exact (A _ _ Hb).
Qed.

(** A thread that has been woken does not wait any more. *)
Lemma woke_rel s k w n : reach s -> In (EWoke k w n) (hist s) -> exists m, In (EReleased w m n) (hist s).
Proof.
  intros Hr Hin. apply in_split in Hin as (h2 & h1 & E). pose proof (legal_inv Hr _ _ _ E) as [(m & A) _]. exists m. rewrite E. apply in_or_app. right. now right.
Qed.
Lemma woke_inv s : reach s -> forall k w n, In (EWoke k w n) (hist s) -> forall m, resting (pcs s w) <> Some (m, n).
Proof.
  induction 1 as [|s l s' Hr IH Hub Hd Hs]; [intros k w n []|]. intros k w n Hin m HR.
  assert (G : In (EWoke k w n) (hist s) -> False).
  { intros H. destruct (rest_step _ Hs HR) as [R|R]; [exact (IH _ _ _ H _ R)|].
    destruct (woke_rel _ _ _ Hr H) as [p A]. destruct (@early_inv s Hr w m n) as [_ B]; [now rewrite R|]. exact (B _ _ A). }
  inversion Hs; subst; unfold touch in *; try (destruct (alive s); [|exact (G Hin)]); cbn in Hin; try (exact (G Hin));
    (destruct Hin as [Hin|Hin]; [try discriminate|exact (G Hin)]).
  injection Hin as -> -> ->. match goal with H : sleeper _ _ |- _ => destruct H as [p E] end.
  cbn in HR. unfold upd in HR. rewrite Nat.eqb_refl, E in HR. destruct (w =? t); discriminate.
Qed.

(** notify_one wakes one thread at most. *)
Definition unsent (p : pc) : option nat := match p with NEnter _ n | NHold _ n => Some n | _ => None end.
Lemma unsent_num p n : unsent p = Some n -> num p = Some n. Proof. destruct p; cbn; congruence. Qed.
Lemma wake_unsent p : unsent (wake p) = unsent p. Proof. destruct p; reflexivity. Qed.
Lemma unsent_inv s : reach s -> forall t k, unsent (pcs s t) = Some k -> count (woken_by k) (hist s) = 0.
Proof.
  induction 1 as [|s l s' Hr IH _ _ Hs]; [intros t k; cbn; discriminate|]. intros u k.
  pose proof (uniq_inv Hr) as Hu. pose proof (enum_inv Hr) as He. unfold count in *.
  inversion Hs; subst; unfold touch; try (destruct (alive s); [|exact (IH u k)]); cbn in *; try exact (IH u k); unfold upd;
    try (destruct (Nat.eqb_spec u t) as [->|Hne]; cbn; rewrite ?wake_unsent; intros X; try discriminate; eauto;
         try (injection X as <-; eapply IH; at_pc s t; reflexivity)).
  - injection X as <-. enough (E : forall h, (forall e, In e h -> In e (hist s)) -> length (filter (woken_by (calls s)) h) = 0) by (apply E; auto).
    intros h. induction h as [|e h IHh]; cbn; intros Hh; auto. destruct (woken_by (calls s) e) eqn:W; [|auto]. exfalso.
    destruct e; cbn in W; try discriminate. apply Nat.eqb_eq in W. subst.
    pose proof (He _ _ (Hh _ (or_introl eq_refl)) eq_refl). lia.
  - assert (X' : unsent (pcs s u) = Some k) by (destruct (Nat.eqb_spec u w) as [->|Hw]; rewrite ?wake_unsent in X; auto).
    destruct (Nat.eqb_spec n k) as [->|Hk]; [|eauto]. exfalso. apply Hne. eapply Hu; [apply unsent_num; exact X'|]. at_pc s t; reflexivity.
Qed.
Lemma woken_once s : reach s -> forall k, count (woken_by k) (hist s) <= 1.
Proof.
  induction 1 as [|s l s' Hr IH _ _ Hs]; [intros k; cbn; lia|]. intros k. pose proof (unsent_inv Hr) as Hn. unfold count in *.
  inversion Hs; subst; unfold touch; try (destruct (alive s); [|exact (IH k)]); cbn; try exact (IH k).
  destruct (Nat.eqb_spec n k) as [->|Hk]; cbn; [|exact (IH k)]. rewrite (Hn t k); [lia|]. at_pc s t; reflexivity.
Qed.

(** ** Progress *)
Lemma finite s : reach s -> exists N, forall u, N <= u -> pcs s u = Idle.
Proof.
  induction 1 as [|s l s' Hr IH _ _ Hs]; [exists 0; reflexivity|]. destruct IH as [N HN].
  assert (G : forall (s0 : st) t p, pcs s0 = pcs s -> exists N, forall u, N <= u -> upd (pcs s0) t p u = Idle).
  { intros s0 t p E. exists (S (max N t)). intros u Hu. rewrite upd_neq by lia. rewrite E. apply HN. lia. }
  inversion Hs; subst; unfold touch; try (destruct (alive s); [|exists N; exact HN]); cbn; try (exists N; exact HN); try (apply G; reflexivity).
  - exists (S (max N t)). intros u Hu. rewrite upd_neq by lia. rewrite HN by lia. reflexivity.
  - exists (S (max N (max t w))). intros u Hu. rewrite !upd_neq by lia. apply HN. lia.
Qed.
Lemma asleep_dec s : reach s -> (exists w k, sleeper (pcs s w) k) \/ forall w, is_asleep (pcs s w) = false.
Proof.
  intros Hr. destruct (finite Hr) as [N HN].
  assert (G : forall n, (exists w k, sleeper (pcs s w) k) \/ forall w, w < n -> is_asleep (pcs s w) = false).
  { intros n. induction n as [|n [H|H]]; [right; lia|auto|]. destruct (is_asleep (pcs s n)) eqn:E.
    - left. destruct (pcs s n) eqn:P; try discriminate. exists n, n0, m. exact P.
    - right. intros w Hw. destruct (Nat.eq_dec w n) as [->|]; auto. apply H. lia. }
  destruct (G N) as [H|H]; auto. right. intros w. destruct (le_lt_dec N w); [now rewrite HN|auto].
Qed.
Lemma holder_steps s t : reach s -> iown s = Some t -> exists l s', inner l /\ step s l s'.
Proof.
  intros Hr Hi. pose proof (proj2 (own_inv Hr t) Hi) as H. destruct (pcs s t) eqn:E; cbn in H; try discriminate.
  - destruct (mown s m) as [o|] eqn:M; [destruct (Nat.eq_dec o t) as [->|Ho]|]; (exists (LStep t); eexists; split; [exact I|]).
    + eapply s_release; eauto.
    + eapply s_notowned; eauto. congruence.
    + eapply s_notowned; eauto. congruence.
  - exists (LStep t); eexists; split; [exact I|]. eapply s_throw; eauto.
  - exists (LStep t); eexists; split; [exact I|]. eapply s_sleep; eauto.
  - exists (LStep t); eexists; split; [exact I|]. eapply s_drop; eauto.
  - destruct all.
    + exists (LStep t); eexists; split; [exact I|]. eapply s_broadcast; eauto.
    + destruct (asleep_dec Hr) as [(w & k & A)|A].
      * exists (LSignal t w); eexists; split; [exact I|]. eapply s_signal; eauto.
      * exists (LMiss t); eexists; split; [exact I|]. eapply s_miss; eauto.
  - exists (LStep t); eexists; split; [exact I|]. eapply s_leave; eauto.
Qed.
Lemma stuck s : reach s -> (forall l s', inner l -> ~ step s l s') -> forall t,
  match pcs s t with
  | Idle | WSleep _ _ => True
  | WRelock m _ | WAgain m _ => exists u, u <> t /\ mown s m = Some u
  | _ => False
  end.
Proof.
  intros Hr Hno t.
  assert (Hi : iown s = None).
  { destruct (iown s) as [u|] eqn:E; auto. exfalso. destruct (holder_steps Hr E) as (l & s' & A & B). exact (Hno _ _ A B). }
  pose proof (own_inv Hr t) as Ho. pose proof (@late_free s Hr t) as Hf.
  destruct (pcs s t) eqn:E; auto; cbn in Ho, Hf;
    try (rewrite Hi in Ho; destruct Ho as [Ho _]; specialize (Ho eq_refl); discriminate).
  - refine (Hno (LStep t) _ I _). eapply s_enter; eauto.
  - refine (Hno (LStep t) _ I _). eapply s_wokeup; eauto.
  - specialize (Hf _ _ eq_refl). destruct (mown s m) as [u|] eqn:M; [exists u; split; congruence|].
    exfalso. refine (Hno (LStep t) _ I _). eapply s_relock; eauto.
  - specialize (Hf _ _ eq_refl). destruct (mown s m) as [u|] eqn:M; [exists u; split; congruence|].
    exfalso. refine (Hno (LStep t) _ I _). eapply s_again; eauto.
  - refine (Hno (LStep t) _ I _). eapply s_nenter; eauto.
Qed.

(** ** Destruction *)
Lemma reach_if_reach ok s : reach_if ok s -> reach s.
Proof. induction 1; [constructor|econstructor; eauto]. Qed.
Lemma out_safe s : reach_if all_out s -> ub s = false /\ (alive s = false -> all_out s).
Proof.
  induction 1 as [|s l s' Hr IH Hub Hd Hs Hok Hal]; [cbn; split; auto; discriminate|]. destruct IH as [_ IH].
  destruct (alive s) eqn:A.
  - split.
    + inversion Hs; subst; unfold touch; rewrite ?A; cbn; auto.
    + inversion Hs; subst; unfold touch; rewrite ?A; cbn; try (rewrite A; discriminate).
      intros _. exact (Hok _ eq_refl).
  - specialize (IH eq_refl). inversion Hs; subst; try discriminate Hal;
      try (exfalso; specialize (IH t); at_pc_in s t IH; exact IH); cbn; split; auto; intros _;
      try (intros u; specialize (IH u); cbn; unfold upd; destruct (u =? t); auto; exact IH).
Qed.

Lemma woke_step s l s' k w j : reach s -> step s l s' -> In (EWoke k w j) (hist s') -> In (EWoke k w j) (hist s) \/ k < calls s /\ resting (pcs s' w) = None.
Proof.
  intros Hr Hs HW. inversion Hs; subst; unfold touch in *; try (destruct (alive s); [|auto]); cbn in HW; auto; (destruct HW as [HW|HW]; [try discriminate|auto]).
  injection HW as -> -> ->. right. split; [eapply (num_inv Hr t); at_pc s t; reflexivity|].
  match goal with H : sleeper _ _ |- _ => destruct H as [p' E] end. cbn. unfold upd. rewrite Nat.eqb_refl, E. destruct (w =? t); reflexivity.
Qed.
Lemma woke_other s : reach s -> forall t m n u a k w j, resting (pcs s t) = Some (m, n) -> before (hist s) (EReleased t m n) (ENotify u a k) ->
  In (EWoke k w j) (hist s) -> w <> t.
Proof.
  induction 1 as [|s l s' Hr IH Hub Hd Hs]; [intros t m n u a k w j; cbn; discriminate|]. intros r p n u a k w j HR HB HW.
  destruct (hist_step Hs) as (q & Hq & Hb). specialize (Hb _ _ _ _ HB). pose proof (woke_step _ _ _ Hr Hs HW) as HW'.
  assert (Hk : k < calls s) by (destruct HW' as [X|[X _]]; [exact (enum_inv Hr _ X eq_refl)|exact X]).
  destruct Hb as [Hb|Hb]; [|lia].
  destruct (rest_step _ Hs HR) as [HR0|HR0].
  - destruct HW' as [X|[_ X]]; [eapply IH; eauto|]. intros ->. congruence.
  - exfalso. destruct (@early_inv s Hr r p n) as [EW A]; [now rewrite HR0|]. apply before_in in Hb as [Hb _]; exact (A _ _ Hb).
Qed.
(** A call that has released its mutex and has not ended is in its second part. *)
Lemma rel_late s : reach s -> forall t m n, In (EReleased t m n) (hist s) -> existsb (ends n) (hist s) = false -> late (pcs s t) = Some (m, n).
Proof.
  induction 1 as [|s l s' Hr IH _ _ Hs]; [intros t m n []|]. intros u a k Hin He.
  inversion Hs; subst; unfold touch in *; try (destruct (alive s); [|exact (IH u a k Hin He)]); cbn in *; try exact (IH u a k Hin He);
    try (apply orb_false_iff in He as [He1 He]); try (destruct Hin as [Hin|Hin]; [try discriminate|specialize (IH _ _ _ Hin He)]);
    try specialize (IH _ _ _ Hin He); unfold upd; auto;
    try (destruct (Nat.eqb_spec u t) as [->|Hne]; [at_pc_in s t IH; cbn in IH; try discriminate; try exact IH|]; rewrite ?wake_late; auto).
  - injection Hin as -> -> ->. now rewrite Nat.eqb_refl.
  - injection IH as -> ->. rewrite Nat.eqb_refl in He1. discriminate.
  - injection IH as -> ->. rewrite Nat.eqb_refl in He1. discriminate.
  - destruct (Nat.eqb_spec u w) as [->|Hw]; rewrite ?wake_late; auto.
Qed.
Lemma open_free s : reach s -> forall t m n, In (EReleased t m n) (hist s) -> existsb (ends n) (hist s) = false -> mown s m <> Some t.
Proof. intros Hr t m n A B. eapply late_free; eauto. eapply rel_late; eauto. Qed.
