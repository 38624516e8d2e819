(** * Invariants of constructors that fail *)
From Coq Require Import List Arith Bool Lia.
From Verif Require Import RC_Spec.
Import ListNotations.
Set Implicit Arguments.

Definition num (k : kind) : nat := match k with Pool n | Sched n => n | _ => 1 end.
Definition reserves (k : kind) : bool := match k with Pool _ | Submit => true | _ => false end.
Definition has_room (k : kind) : bool := match k with Sched _ | Create => false | _ => true end.
(** Code of destructors: [j] what is joined, [t] whether the thread objects exist *)
Fixpoint okc (n : nat) (j : nat -> bool) (t : bool) (c : list instr) : Prop :=
  match c with
  | [] => forall i, i < n -> j i = true
  | IJoin i :: c => t = true /\ i < n /\ okc n (fupd j i true) t c
  | IThreadsDtor :: c => (forall i, i < n -> j i = true) /\ okc n j false c
  | IQueueDtor :: c => (forall i, i < n -> j i = true) /\ okc n j t c
  | IClose :: c | IInterrupt _ :: c | ILocalDtor :: c => okc n j t c
  | _ => False
  end.
Lemma fupd_same A (f : nat -> A) i x : fupd f i x i = x.
Proof. unfold fupd. now rewrite Nat.eqb_refl. Qed.
Lemma fupd_other A (f : nat -> A) i x j : j <> i -> fupd f i x j = f j.
Proof. intros H. unfold fupd. apply Nat.eqb_neq in H. now rewrite H. Qed.

Definition body_at (k : kind) (s : sys) : Prop :=
  (reserves k = true /\ code s = body k /\ cnt s = 0 /\ thr s = [] /\ loc s = None) \/
  (exists m, m <= num k /\ code s = starts m /\ cnt s = num k - m /\ thr s = seq 0 (num k - m) /\ loc s = None /\ (has_room k = true -> cap s = num k)) \/
  (exists m, S m <= num k /\ code s = IPush :: starts m /\ cnt s = num k - m /\ thr s = seq 0 (num k - S m) /\ loc s = Some (num k - S m) /\ (has_room k = true -> cap s = num k)).
Definition at_phase (k : kind) (s : sys) : Prop :=
  match ph s with
  | PBody => body_at k s /\ qa s = true
  | PThrow => cnt s = 0 /\ thr s = [] /\ loc s = None /\ exists t, okc 0 (joined s) t (code s)
  | PLive => cnt s = num k /\ thr s = seq 0 (num k) /\ loc s = None /\ qa s = true
  | PDtor => is_object k = true /\ cnt s = num k /\ loc s = None /\ (qa s = false -> forall i, i < num k -> joined s i = true) /\
      exists t, okc (num k) (joined s) t (code s) /\ (if t then thr s = seq 0 (num k) else thr s = [])
  | PThrown => cnt s = 0
  | PDone => is_object k = true /\ cnt s = num k /\ forall i, i < num k -> joined s i = true
  | PTerm => False
  end.
Record inv (k : kind) (s : sys) : Prop := {
  v_run : forall w, run s w = Running -> w < cnt s ;
  v_start : forall w, In (EStart w) (hist s) <-> w < cnt s ;
  v_join : forall w, joined s w = true -> run s w = Ended ;
  v_free : ph s <> PDtor -> ph s <> PDone -> forall w, joined s w = false ;
  v_thrown : In EThrown (hist s) -> ph s = PThrown ;
  v_done : In EDestroyed (hist s) -> ph s = PDone ;
  v_built : In EBuilt (hist s) -> ph s = PLive \/ ph s = PDtor \/ ph s = PDone ;
  v_dead : forall w, ~ In (EDead w) (hist s) ;
  v_term : ~ In ETerm (hist s) ;
  v_at : at_phase k s
}.
Lemma okc_ext n c : forall j j' t, (forall i, j i = j' i) -> okc n j t c -> okc n j' t c.
Proof.
  induction c as [|x c IH]; intros j j' t E; cbn [okc].
  - intros H i Hi. rewrite <- E. auto.
  - destruct x; auto.
    + apply IH; exact E.
    + apply IH; exact E.
    + apply IH; exact E.
    + intros (A & B & C). split; [exact A|]. split; [exact B|]. apply (IH (fupd j i true)); [|exact C]. intros i0. unfold fupd. destruct (i0 =? i); auto.
    + intros (A & B). split; [intros i Hi; rewrite <- E; auto|exact (IH _ _ _ E B)].
    + intros (A & B). split; [intros i Hi; rewrite <- E; auto|exact (IH _ _ _ E B)].
Qed.
(** The destructors join all threads first *)
Lemma okc_pool m : forall a n j, a + m = n -> (forall i, i < a -> j i = true) -> okc n j true (flat_map (fun i => [IInterrupt i; IJoin i]) (seq a m) ++ [IQueueDtor; IThreadsDtor]).
Proof.
  induction m as [|m IH]; intros a n j E H; cbn [seq flat_map app okc].
  - assert (A : forall i, i < n -> j i = true) by (intros i Hi; apply H; lia). auto.
  - split; [reflexivity|]. split; [lia|]. apply IH; [lia|]. intros i Hi. unfold fupd. destruct (i =? a) eqn:Ei; [reflexivity|]. apply Nat.eqb_neq in Ei. apply H. lia.
Qed.
Lemma okc_interrupts n l c : forall j t, okc n j t c -> okc n j t (map IInterrupt l ++ c).
Proof. induction l as [|i l IH]; intros j t H; cbn; auto. Qed.
Lemma okc_joins m : forall a n j, a + m = n -> (forall i, i < a -> j i = true) -> okc n j true (map IJoin (seq a m) ++ [IThreadsDtor; IClose; IQueueDtor]).
Proof.
  induction m as [|m IH]; intros a n j E H; cbn [seq map app okc].
  - assert (A : forall i, i < n -> j i = true) by (intros i Hi; apply H; lia). auto.
  - split; [reflexivity|]. split; [lia|]. apply IH; [lia|]. intros i Hi. unfold fupd. destruct (i =? a) eqn:Ei; [reflexivity|]. apply Nat.eqb_neq in Ei. apply H. lia.
Qed.
Lemma okc_dtor k j : is_object k = true -> okc (num k) j true (dtor k).
Proof.
  assert (A : forall f : nat -> bool, f 0 = true -> forall i, i < 1 -> f i = true) by (intros f Hf i Hi; replace i with 0 by lia; exact Hf).
  intros Hk. destruct k; try discriminate; cbn [dtor num okc].
  - apply okc_pool; [reflexivity|lia].
  - apply okc_interrupts. apply okc_joins; [reflexivity|lia].
  - repeat split; try lia; apply A; apply fupd_same.
  - repeat split; try lia; apply A; apply fupd_same.
Qed.
Lemma okc_unwind k j : exists t, okc 0 j t (unwind k).
Proof. exists true. destruct k; cbn; repeat split; intros; lia. Qed.

Ltac keep I := try first [exact (v_run I)|exact (v_start I)|exact (v_join I)|exact (v_free I)|exact (v_thrown I)|exact (v_done I)|exact (v_built I)|exact (v_dead I)|exact (v_term I)].
Section S.
  Variable term : bool.
  Variable k : kind.
  Lemma hist_grows s s' : step term k s s' -> exists l, hist s' = l ++ hist s.
  Proof.
    assert (K0 : forall s0 s1, hist s1 = hist s0 -> exists l, hist s1 = l ++ hist s0) by (intros s0 s1 E; exists []; exact E).
    assert (K1 : forall s0 s1 x, hist s1 = x :: hist s0 -> exists l, hist s1 = l ++ hist s0) by (intros s0 s1 x E; exists [x]; exact E).
    intros Hst. destruct Hst as [s i c Hp Hc Hg|s i c Hp Hc Hg|s Hp Hc|s Hp Ho|s Hp Hc|s Hp Hc|s w Hp Ho Hr Hq|s w Hp Hr He]; try (now apply K0); try (eapply K1; reflexivity).
    destruct i; cbn [exec]; unfold destroy; try (now apply K0); try (eapply K1; reflexivity); destruct (term && _); try (now apply K0); eapply K1; reflexivity.
  Qed.
  (** Nothing to destroy that is not joined *)
  Lemma destroy_ok s l s' : (forall w, In w l -> joined s w = true) -> destroy term s l s' = s'.
  Proof.
    intros H. unfold destroy. destruct (existsb _ l) eqn:E; [|now rewrite andb_false_r]. apply existsb_exists in E. destruct E as (w & Hin & Hw). rewrite (H _ Hin) in Hw. discriminate.
  Qed.
  Lemma exec_body s i c : inv k s -> ph s = PBody -> code s = i :: c -> inv k (exec term s i c).
  Proof.
    intros I Hp Hc. pose proof (v_at I) as V. unfold at_phase in V. rewrite Hp in V. destruct V as (B & Hq).
    assert (J : forall w, joined s w = false) by (apply (v_free I); rewrite Hp; discriminate).
    assert (N : forall w, ~ In (EDead w) (hist s)) by exact (v_dead I).
    destruct B as [(Hk & Eb & Ec & Et & El)|[(m & Hm & Eb & Ec & Et & El & Ecap)|(m & Hm & Eb & Ec & Et & El & Ecap)]].
    - (* reserve *) rewrite Eb in Hc. destruct k as [n|n| | | |]; try discriminate; cbn in Hc; injection Hc as <- <-.
      + constructor; cbn; keep I. unfold at_phase; cbn. rewrite Hp. split; [|exact Hq].
        right. left. exists n. cbn. rewrite Nat.sub_diag, Et. cbn. auto 8.
      + constructor; cbn; keep I. unfold at_phase; cbn. rewrite Hp. split; [|exact Hq].
        right. left. exists 1. cbn. rewrite Et. cbn. auto 8.
    - (* start *) rewrite Eb in Hc. destruct m as [|m]; [discriminate|]. cbn in Hc. injection Hc as <- <-. constructor; cbn [exec run cnt hist joined ph].
      + intros w. unfold fupd. destruct (w =? cnt s) eqn:E; [apply Nat.eqb_eq in E; lia|]. intros H. pose proof (v_run I w H). lia.
      + intros w. pose proof (v_start I w) as A. cbn [In]. split.
        * intros [E|H]; [injection E as ->; lia|apply A in H; lia].
        * intros H. destruct (Nat.eq_dec (cnt s) w) as [->|Hne]; [left; reflexivity|right; apply A; lia].
      + intros w H. rewrite J in H. discriminate.
      + intros _ _. exact J.
      + intros [E|H]; [discriminate|]. exact (v_thrown I H).
      + intros [E|H]; [discriminate|]. exact (v_done I H).
      + intros [E|H]; [discriminate|]. exact (v_built I H).
      + intros w [E|H]; [discriminate|]. exact (N w H).
      + intros [E|H]; [discriminate|]. exact (v_term I H).
      + unfold at_phase; cbn. rewrite Hp. split; [|exact Hq]. right. right. exists m. cbn. split; [exact Hm|]. split; [reflexivity|]. split; [lia|]. split; [exact Et|].
        split; [rewrite Ec; reflexivity|exact Ecap].
    - (* push *) rewrite Eb in Hc. injection Hc as <- <-.
      assert (E1 : num k - m = S (num k - S m)) by lia.
      constructor; cbn; keep I. unfold at_phase; cbn. rewrite Hp. split; [|exact Hq].
      right. left. exists m. cbn. split; [lia|]. split; [reflexivity|]. split; [exact Ec|]. split; [|split; [reflexivity|exact Ecap]].
      rewrite El, Et, E1, seq_S. reflexivity.
  Qed.
  Lemma exec_throw s i c : inv k s -> ph s = PThrow -> code s = i :: c -> inv k (exec term s i c).
  Proof.
    intros I Hp Hc. pose proof (v_at I) as V. unfold at_phase in V. rewrite Hp in V. destruct V as (Ec & Et & El & t & Hok). rewrite Hc in Hok.
    assert (J : forall w, joined s w = false) by (apply (v_free I); rewrite Hp; discriminate).
    destruct i; cbn [exec okc] in *; try contradiction.
    - rewrite El, destroy_ok by (intros w []). constructor; cbn; keep I. unfold at_phase; cbn; rewrite Hp; eauto.
    - constructor; cbn; keep I. unfold at_phase; cbn; rewrite Hp; eauto.
    - constructor; cbn; keep I. unfold at_phase; cbn; rewrite Hp; eauto.
    - destruct Hok as (_ & A & _). lia.
    - destruct Hok as (_ & A). rewrite Et, destroy_ok by (intros w []). constructor; cbn; keep I. unfold at_phase; cbn; rewrite Hp; eauto.
    - destruct Hok as (_ & A). constructor; cbn; keep I. unfold at_phase; cbn; rewrite Hp; eauto.
  Qed.
  Lemma exec_dtor s i c : inv k s -> ph s = PDtor -> code s = i :: c -> may_go s i = true -> inv k (exec term s i c).
  Proof.
    intros I Hp Hc Hg. pose proof (v_at I) as V. unfold at_phase in V. rewrite Hp in V. destruct V as (Ho & Ec & El & Hq & t & Hok & Ht). rewrite Hc in Hok.
    destruct i; cbn [exec okc may_go] in *; try contradiction.
    - rewrite El, destroy_ok by (intros w []). constructor; cbn; keep I. unfold at_phase; cbn; rewrite Hp; eauto 10.
    - constructor; cbn; keep I. unfold at_phase; cbn; rewrite Hp; eauto 10.
    - constructor; cbn; keep I. unfold at_phase; cbn; rewrite Hp; eauto 10.
    - destruct Hok as (-> & Hi & Hok). rewrite Ht, seq_nth in * by exact Hi. cbn [Nat.add] in *.
      assert (He : run s i = Ended) by (destruct (run s i); [discriminate|discriminate|reflexivity]).
      constructor; cbn; keep I.
      + intros w. unfold fupd. destruct (w =? i) eqn:E; [apply Nat.eqb_eq in E; subst w; intros _; exact He|]. apply (v_join I).
      + intros A. congruence.
      + unfold at_phase; cbn; rewrite Hp. split; [exact Ho|]. split; [exact Ec|]. split; [exact El|]. split; [|exists true; auto].
        intros Hq0 w Hw. unfold fupd. destruct (w =? i); [reflexivity|auto].
    - destruct Hok as (A & Hok). rewrite destroy_ok. 2:{ destruct t; rewrite Ht; [|intros w []]. intros w Hin. apply in_seq in Hin. apply A. lia. }
      constructor; cbn; keep I. unfold at_phase; cbn; rewrite Hp. split; [exact Ho|]. split; [exact Ec|]. split; [exact El|]. split; [exact Hq|]. exists false. auto.
    - destruct Hok as (A & Hok). constructor; cbn; keep I. unfold at_phase; cbn; rewrite Hp. split; [exact Ho|]. split; [exact Ec|]. split; [exact El|]. split; [intros _; exact A|].
      exists t. auto.
  Qed.
  Lemma step_inv s s' : inv k s -> step term k s s' -> ~ late_failure s' -> inv k s'.
  Proof.
    intros I Hst Hl. pose proof (v_at I) as V. unfold at_phase in V.
    destruct Hst as [s i c Hp Hc Hg|s i c Hp Hc Hg|s Hp Hc|s Hp Ho|s Hp Hc|s Hp Hc|s w Hp Ho Hr Hq|s w Hp Hr He].
    - destruct Hp as [Hp|[Hp|Hp]]; [exact (exec_body I Hp Hc)|exact (exec_throw I Hp Hc)|exact (exec_dtor I Hp Hc Hg)].
    - (* throw *) rewrite Hp in V. destruct V as (B & Hq). assert (J : forall w, joined s w = false) by (apply (v_free I); rewrite Hp; discriminate).
      assert (Ec : cnt s = 0) by (destruct (cnt s) as [|c0] eqn:E; [reflexivity|destruct Hl; exists c0; cbn; rewrite ?E; left; reflexivity]).
      constructor; cbn [goto run cnt hist joined ph app].
      + exact (v_run I).
      + intros w. rewrite <- (v_start I w). cbn. split; [intros [E|H]; [discriminate|exact H]|auto].
      + exact (v_join I).
      + intros _ _. exact J.
      + intros [E|H]; [discriminate|]. pose proof (v_thrown I H). congruence.
      + intros [E|H]; [discriminate|]. pose proof (v_done I H). congruence.
      + intros [E|H]; [discriminate|]. pose proof (v_built I H). rewrite Hp in *. destruct H0 as [A|[A|A]]; discriminate.
      + intros w [E|H]; [discriminate|]. exact (v_dead I w H).
      + intros [E|H]; [discriminate|]. exact (v_term I H).
      + unfold at_phase; cbn [goto ph cnt thr loc joined code]. destruct (okc_unwind k (joined s)) as (t & Hok).
        destruct B as [(_ & _ & _ & Et & El)|[(m & Hm & _ & Ec2 & Et & El & _)|(m & Hm & _ & Ec2 & Et & El & _)]]; [|rewrite <- Ec2, Ec in Et|lia]; (split; [exact Ec|split; [exact Et|split; [exact El|exists t; exact Hok]]]).
    - (* built *) rewrite Hp in V. destruct V as (B & Hq). assert (J : forall w, joined s w = false) by (apply (v_free I); rewrite Hp; discriminate).
      constructor; cbn [goto run cnt hist joined ph app].
      + exact (v_run I).
      + intros w. rewrite <- (v_start I w). cbn. split; [intros [E|H]; [discriminate|exact H]|auto].
      + exact (v_join I).
      + intros _ _. exact J.
      + intros [E|H]; [discriminate|]. pose proof (v_thrown I H). congruence.
      + intros [E|H]; [discriminate|]. pose proof (v_done I H). congruence.
      + auto.
      + intros w [E|H]; [discriminate|]. exact (v_dead I w H).
      + intros [E|H]; [discriminate|]. exact (v_term I H).
      + unfold at_phase; cbn. destruct B as [(Hk & Eb & _)|[(m & Hm & Eb & Ec & Et & El & _)|(m & Hm & Eb & _)]].
        * rewrite Eb in Hc. destruct k; first [discriminate Hk|discriminate Hc].
        * rewrite Eb in Hc. destruct m; [|discriminate]. rewrite Nat.sub_0_r in *. auto.
        * congruence.
    - (* destroy *) rewrite Hp in V. destruct V as (Ec & Et & El & Hq). constructor; cbn [goto run cnt hist joined ph app]; keep I.
      + intros A. congruence.
      + intros H. pose proof (v_thrown I H). congruence.
      + intros H. pose proof (v_done I H). congruence.
      + auto.
      + unfold at_phase; cbn. split; [exact Ho|]. split; [exact Ec|]. split; [exact El|]. split; [congruence|]. exists true. split; [exact (@okc_dtor _ _ Ho)|exact Et].
    - (* thrown *) rewrite Hp in V. destruct V as (Ec & _). constructor; cbn [goto run cnt hist joined ph app].
      + exact (v_run I).
      + intros w. rewrite <- (v_start I w). cbn. split; [intros [E|H]; [discriminate|exact H]|auto].
      + exact (v_join I).
      + intros _ _. apply (v_free I); rewrite Hp; discriminate.
      + auto.
      + intros [E|H]; [discriminate|]. pose proof (v_done I H). congruence.
      + intros [E|H]; [discriminate|]. pose proof (v_built I H). rewrite Hp in *. destruct H0 as [A|[A|A]]; discriminate.
      + intros w [E|H]; [discriminate|]. exact (v_dead I w H).
      + intros [E|H]; [discriminate|]. exact (v_term I H).
      + exact Ec.
    - (* done *) rewrite Hp in V. destruct V as (Ho & Ec & _ & _ & t & Hok & _). rewrite Hc in Hok. constructor; cbn [goto run cnt hist joined ph app].
      + exact (v_run I).
      + intros w. rewrite <- (v_start I w). cbn. split; [intros [E|H]; [discriminate|exact H]|auto].
      + exact (v_join I).
      + intros _ A. congruence.
      + intros [E|H]; [discriminate|]. pose proof (v_thrown I H). congruence.
      + auto.
      + auto.
      + intros w [E|H]; [discriminate|]. exact (v_dead I w H).
      + intros [E|H]; [discriminate|]. exact (v_term I H).
      + unfold at_phase; cbn. auto.
    - (* use *) exfalso. pose proof (v_run I w Hr) as Hw. destruct (ph s) eqn:Ep.
      + destruct V as (_ & A). congruence.
      + destruct V as (A & _). lia.
      + destruct V as (_ & _ & _ & A). congruence.
      + destruct V as (_ & A & _ & B & _). rewrite A in Hw. pose proof (v_join I w (B Hq w Hw)). congruence.
      + lia.
      + destruct V as (_ & A & B). rewrite A in Hw. pose proof (v_join I w (B w Hw)). congruence.
      + congruence.
    - (* end *) constructor; cbn [run cnt hist joined ph]; keep I.
      + intros w0. unfold fupd. destruct (w0 =? w); [discriminate|]. exact (v_run I w0).
      + intros w0 H. unfold fupd. destruct (w0 =? w); [reflexivity|]. exact (v_join I w0 H).
      + exact (v_at I).
  Qed.
  Lemma reach_inv s : reach term k s -> ~ late_failure s -> inv k s.
  Proof.
    intros Hr. induction Hr as [|s s' Hr IH Hst]; intros Hl.
    - constructor; cbn; try tauto; try discriminate; try auto.
      + intros w. split; [intros []|lia].
      + unfold at_phase, body_at; cbn. split; [|reflexivity]. destruct k as [n|n| | | |]; cbn; auto 8; right; left;
          [exists n|exists 1|exists 1|exists 1]; rewrite ?Nat.sub_diag; cbn; auto 8; repeat split; auto; discriminate.
    - refine (step_inv (IH _) Hst Hl). intros (c & Hin). apply Hl. exists c. destruct (hist_grows Hst) as (l & ->). apply in_or_app. auto.
  Qed.
  (** Where there is always room, only the start of the first of one thread can fail *)
  Lemma never_late s : has_room k = true -> num k = 1 -> reach term k s -> ~ late_failure s.
  Proof.
    intros Hk Hn Hr. induction Hr as [|s s' Hr IH Hst]; [intros (c & [])|]. pose proof (reach_inv Hr IH) as I. intros (c & Hin).
    assert (K : forall l, hist s' = l ++ hist s -> In (EFail (S c)) l) by (intros l E; rewrite E in Hin; apply in_app_or in Hin; destruct Hin as [A|A]; [exact A|destruct IH; now exists c]).
    destruct Hst as [s i c0 Hp Hc Hg|s i c0 Hp Hc Hg|s Hp Hc|s Hp Ho|s Hp Hc|s Hp Hc|s w Hp Ho Hr0 Hq|s w Hp Hr0 He].
    - destruct i; cbn [exec hist] in *; try (now destruct (K [] eq_refl)); try (now destruct (K [_] eq_refl)); unfold destroy in *; destruct (term && _); cbn [goto hist] in *;
        first [now destruct (K [] eq_refl)|destruct (K [ETerm] eq_refl) as [A|[]]; discriminate].
    - cbn in K. destruct (K [EFail (cnt s)] eq_refl) as [E|[]]. injection E as E. pose proof (v_at I) as V. unfold at_phase in V. rewrite Hp in V.
      destruct V as ([(_ & _ & A & _)|[(m & Hm & Eb & Ec & Et & El & Ecap)|(m & Hm & Eb & Ec & Et & El & Ecap)]] & _); [lia| |].
      + destruct m as [|m]; [rewrite Eb in Hc; discriminate|]. lia.
      + rewrite Eb in Hc. injection Hc as <- <-. cbn in Hg. rewrite Et, seq_length, (Ecap Hk) in Hg. apply negb_true_iff, Nat.ltb_ge in Hg. lia.
    - destruct (K [EBuilt] eq_refl) as [A|[]]; discriminate.
    - destruct (K [] eq_refl).
    - destruct (K [EThrown] eq_refl) as [A|[]]; discriminate.
    - destruct (K [EDestroyed] eq_refl) as [A|[]]; discriminate.
    - destruct (K [EDead w] eq_refl) as [A|[]]; discriminate.
    - destruct (K [] eq_refl).
  Qed.
End S.
