(** * call_once on Windows: proofs *)
From Verif Require Export WO_Spec.
Set Implicit Arguments.

(** ** Sums over the threads *)
Fixpoint total (f : thr -> nat) (l : list thr) : nat := match l with [] => 0 | x :: l' => f x + total f l' end.

Lemma total_set : forall f l t x y, nth_error l t = Some x -> total f (set_thr l t y) + f x = total f l + f y.
Proof.
  intros f. induction l as [|z l IH]; intros [|t] x y H; cbn in *; try discriminate.
  - injection H as ->. lia.
  - specialize (IH t x y H). lia.
Qed.
Lemma total_ge : forall f l t x, nth_error l t = Some x -> f x <= total f l.
Proof. intros f. induction l as [|z l IH]; intros [|t] x H; cbn in *; try discriminate; [injection H as ->; lia|specialize (IH _ _ H); lia]. Qed.
Lemma total_ge2 : forall f l t x t' x', nth_error l t = Some x -> nth_error l t' = Some x' -> t <> t' -> f x + f x' <= total f l.
Proof.
  intros f. induction l as [|z l IH]; intros [|t] x [|t'] x' H H' Hne; cbn in *; try discriminate; try congruence.
  - injection H as ->. pose proof (total_ge f l t' H'). lia.
  - injection H' as ->. pose proof (total_ge f l t H). lia.
  - assert (t <> t') by congruence. specialize (IH _ _ _ _ H H' H0). lia.
Qed.
Lemma total_pos : forall f l, total f l > 0 -> exists t x, nth_error l t = Some x /\ f x > 0.
Proof.
  intros f. induction l as [|z l IH]; cbn; intros H; [lia|]. destruct (f z) eqn:E.
  - destruct IH as (t & x & Hx & Hf); [lia|]. exists (S t), x. auto.
  - exists 0, z. cbn. split; [reflexivity|lia].
Qed.
Lemma total_zero : forall f l, (forall t x, nth_error l t = Some x -> f x = 0) -> total f l = 0.
Proof.
  intros f. induction l as [|z l IH]; cbn; intros H; [reflexivity|]. pose proof (H 0 z eq_refl). rewrite IH; [lia|].
  intros t x Hx. exact (H (S t) x Hx).
Qed.
Lemma nth_set_same : forall l t x y, nth_error l t = Some x -> nth_error (set_thr l t y) t = Some y.
Proof. induction l as [|z l IH]; intros [|t] x y H; cbn in *; try discriminate; [reflexivity|eauto]. Qed.
Lemma nth_set_other : forall l t t' y, t <> t' -> nth_error (set_thr l t y) t' = nth_error l t'.
Proof. induction l as [|z l IH]; intros [|t] [|t'] y H; cbn; try reflexivity; try congruence. apply IH. congruence. Qed.
Lemma length_set : forall l t y, length (set_thr l t y) = length l.
Proof. induction l as [|z l IH]; intros [|t] y; cbn; auto. Qed.

(** ** What is counted *)
Definition b2n (b : bool) : nat := if b then 1 else 0.
Definition cR (x : thr) := match t_pc x with POpen | PReset | PBody | PBack | PCommit | PComplete => 1 | _ => 0 end.
Definition cC (x : thr) := b2n (t_counted x).
Definition cE (x : thr) := match t_pc x with PCommit | PComplete => 1 | _ => 0 end.
Definition cB (x : thr) := match t_pc x with PBody => 1 | _ => 0 end.
Definition cW (x : thr) := match t_pc x with PWait => 1 | _ => 0 end.
Definition cQ (x : thr) := match t_pc x with PWait => 1 | PEnter => b2n (t_counted x) | _ => 0 end.
Definition cP (x : thr) := match t_pc x with PMany | PMake | PBackOpen => 1 | PSet | PBackSet => b2n (t_handle x) | _ => 0 end.
Definition cH (x : thr) := b2n (t_handle x).
Definition runs (f : status) := match f with SRunning => 1 | _ => 0 end.
Definition compl (f : status) := match f with SComplete => 1 | _ => 0 end.
Definition is_free (f : status) := match f with SFree => 1 | _ => 0 end.

(** What holds of a thread by itself *)
Definition shape (x : thr) : Prop :=
  match t_pc x with
  | PWait => t_counted x = true /\ t_handle x = true
  | PCheck | PCreate => t_counted x = true /\ t_handle x = false
  | PCount | PIdle => t_counted x = false /\ t_handle x = false
  | PLoop | PEnter => t_counted x = t_handle x
  | PMany | PComplete => t_counted x = true
  | PMake => t_counted x = true /\ t_handle x = false
  | _ => True
  end.
Definition at_place (p : pc) : place :=
  match p with
  | PIdle => Outside
  | PBody => InFunction
  | PBack | PBackOpen | PBackSet | PClose RThrew => Threw
  | PCommit | PComplete | PMany | PMake | PSet | PClose RRan => Returned
  | _ => Inside
  end.

(** Only reached when the function has completed *)
Definition late (p : pc) : bool := match p with PClose RSkipped | PMany | PMake | PSet => true | _ => false end.

Record inv (s : sys) : Prop := {
  i_run : total cR (thrs s) = runs (st s);
  i_cnt : total cC (thrs s) <= cnt s;
  i_ends : ends (hist s) = compl (st s) + total cE (thrs s);
  i_starts : starts (hist s) = throws (hist s) + ends (hist s) + total cB (thrs s);
  i_shape : forall t x, nth_error (thrs s) t = Some x -> shape x;
  i_place : forall t x, nth_error (thrs s) t = Some x -> place_of t (hist s) = at_place (t_pc x);
  i_out : forall t, nth_error (thrs s) t = None -> place_of t (hist s) = Outside;
  i_skip : forall t x, nth_error (thrs s) t = Some x -> late (t_pc x) = true -> st s = SComplete;
  i_one : one_at_a_time (hist s);
  i_right : right_returns (hist s);
  i_wakeA : st s = SComplete -> total cQ (thrs s) > 0 -> sig s = true \/ total cP (thrs s) > 0;
  i_wakeB : st s = SFree -> total cW (thrs s) > 0 -> sig s = true \/ total cP (thrs s) > 0 }.

Lemma exists_event_true : forall s t x, nth_error (thrs s) t = Some x -> t_handle x = true -> exists_event s = true.
Proof. intros s t x Hx Hh. unfold exists_event. apply existsb_exists. exists x. split; [eapply nth_error_In; eauto|assumption]. Qed.
Lemma exists_event_total : forall s, exists_event s = (0 <? total cH (thrs s)).
Proof.
  intros s. unfold exists_event. induction (thrs s) as [|x l IH]; [reflexivity|]. cbn. unfold cH at 1. destruct (t_handle x); cbn.
  - reflexivity.
  - exact IH.
Qed.

Lemma place_other : forall t u ev h, (forall e, In e ev -> match e with ECall v | EStart v | EEnd v | EThrow v | ERet v _ => v = t end) -> t <> u ->
  place_of u (ev ++ h) = place_of u h.
Proof.
  intros t u ev h. induction ev as [|e ev IH]; intros H Hne; [reflexivity|]. cbn.
  pose proof (H e (or_introl eq_refl)) as He. rewrite IH; [|intros e' He'; apply H; right; exact He'|assumption].
  destruct e; subst; apply Nat.eqb_neq in Hne; now rewrite Hne.
Qed.

(** The waiters have handles. *)
Lemma waiters_have_handles : forall s, inv s -> total cQ (thrs s) > 0 -> exists_event s = true.
Proof.
  intros s I H. destruct (total_pos _ _ H) as (t & x & Hx & Hq). pose proof (i_shape I _ Hx) as Hs. eapply exists_event_true; [exact Hx|].
  unfold cQ in Hq. unfold shape in Hs. destruct (t_pc x); try lia; [|tauto]. rewrite <- Hs. destruct (t_counted x); cbn in *; [reflexivity|lia].
Qed.
Lemma cW_cQ : forall l, total cW l <= total cQ l.
Proof. induction l as [|x l IH]; cbn; [lia|]. assert (cW x <= cQ x); [|lia]. unfold cW, cQ. destruct (t_pc x); lia. Qed.
Lemma cE_cR : forall l, total cE l + total cB l <= total cR l.
Proof. induction l as [|x l IH]; cbn; [lia|]. assert (cE x + cB x <= cR x); [|lia]. unfold cE, cB, cR. destruct (t_pc x); lia. Qed.
Lemma cE_cR_at : forall l t x, nth_error l t = Some x -> total cE l + total cB l + cR x <= total cR l + cE x + cB x.
Proof.
  intros l t x Hx. pose proof (cE_cR (set_thr l t (Thr PIdle false false))) as H.
  pose proof (@total_set cE _ _ _ (Thr PIdle false false) Hx) as H1. pose proof (@total_set cB _ _ _ (Thr PIdle false false) Hx) as H2.
  pose proof (@total_set cR _ _ _ (Thr PIdle false false) Hx) as H3. cbn in H1, H2, H3. lia.
Qed.
Lemma cQ_cC : forall l, (forall x, In x l -> shape x) -> total cQ l <= total cC l.
Proof.
  induction l as [|x l IH]; cbn; intros H; [lia|]. assert (total cQ l <= total cC l) by (apply IH; auto). pose proof (H x (or_introl eq_refl)) as Hs.
  assert (cQ x <= cC x); [|lia]. unfold cQ, cC, shape in *. destruct (t_pc x); try lia. destruct Hs as [-> _]. cbn. lia.
Qed.

Lemma inv_init : forall n, inv (init n).
Proof.
  intros n. assert (Z : forall f, f (Thr PIdle false false) = 0 -> total f (repeat (Thr PIdle false false) n) = 0).
  { intros f Hf. apply total_zero. intros t x Hx. apply nth_error_In, repeat_spec in Hx. now subst. }
  assert (X : forall t x, nth_error (repeat (Thr PIdle false false) n) t = Some x -> x = Thr PIdle false false).
  { intros t x Hx. now apply nth_error_In, repeat_spec in Hx. }
  constructor; cbn; try rewrite !Z by reflexivity; try lia; auto; try discriminate.
  - intros t x Hx. apply X in Hx. subst. cbn. auto.
  - intros t x Hx. apply X in Hx. now subst.
  - intros t x Hx. apply X in Hx. subst. discriminate.
Qed.

Ltac sums Hx y :=
  let aux f := (let Q := fresh "Q" in pose proof (@total_set f _ _ _ y Hx) as Q; let G := fresh "G" in pose proof (@total_ge f _ _ _ Hx) as G) in
  aux cR; aux cC; aux cE; aux cB; aux cW; aux cQ; aux cP.

Lemma inv_put : forall s t x y f n g ev, inv s -> nth_error (thrs s) t = Some x ->
  shape y ->
  (forall e, In e ev -> match e with ECall v | EStart v | EEnd v | EThrow v | ERet v _ => v = t end) ->
  place_of t (ev ++ hist s) = at_place (t_pc y) ->
  (st s = SComplete -> f = SComplete) ->
  (late (t_pc y) = true -> f = SComplete) ->
  total cR (thrs s) + cR y = runs f + cR x ->
  total cC (thrs s) + cC y <= n + cC x ->
  ends (ev ++ hist s) + cE x = compl f + total cE (thrs s) + cE y ->
  starts (ev ++ hist s) + cB x = throws (ev ++ hist s) + ends (ev ++ hist s) + total cB (thrs s) + cB y ->
  one_at_a_time (ev ++ hist s) -> right_returns (ev ++ hist s) ->
  (f = SComplete -> total cQ (thrs s) + cQ y > cQ x -> g = true \/ total cP (thrs s) + cP y > cP x) ->
  (f = SFree -> total cW (thrs s) + cW y > cW x -> g = true \/ total cP (thrs s) + cP y > cP x) ->
  inv (Sys f n g (set_thr (thrs s) t y) (ev ++ hist s)).
Proof.
  intros s t x y f n g ev I Hx Hs Hev Hp Hf Hk H1 H2 H3 H4 H5 H6 H7 H8. sums Hx y.
  constructor; cbn [st cnt sig thrs hist]; try lia; auto.
  - intros u z Hu. destruct (Nat.eq_dec t u) as [->|Hne].
    + rewrite (nth_set_same _ _ _ Hx) in Hu. now injection Hu as <-.
    + rewrite nth_set_other in Hu by assumption. exact (i_shape I _ Hu).
  - intros u z Hu. destruct (Nat.eq_dec t u) as [->|Hne].
    + rewrite (nth_set_same _ _ _ Hx) in Hu. now injection Hu as <-.
    + rewrite nth_set_other in Hu by assumption. rewrite (place_other (t := t)) by assumption. exact (i_place I _ Hu).
  - intros u Hu. destruct (Nat.eq_dec t u) as [->|Hne].
    + rewrite (nth_set_same _ _ _ Hx) in Hu. discriminate.
    + rewrite nth_set_other in Hu by assumption. rewrite (place_other (t := t)) by assumption. exact (i_out I _ Hu).
  - intros u z Hu Hz. destruct (Nat.eq_dec t u) as [->|Hne].
    + rewrite (nth_set_same _ _ _ Hx) in Hu. injection Hu as <-. auto.
    + rewrite nth_set_other in Hu by assumption. apply Hf. exact (i_skip I _ Hu Hz).
  - intros Hc Hq. destruct (H7 Hc ltac:(lia)); [auto|right; lia].
  - intros Hc Hq. destruct (H8 Hc ltac:(lia)); [auto|right; lia].
Qed.

Lemma inv_step : forall s l s', inv s -> exec s l = Some s' -> inv s'.
Proof.
  intros s l s' I H.
  assert (Hl : exists t x, nth_error (thrs s) t = Some x /\ match l with LCall u => u = t /\ call s t x = Some s' | LRun u => u = t /\ run s t x = Some s' | LEnd u b => u = t /\ finish s t x b = Some s' end).
  { destruct l as [t|t|t b]; cbn in H; destruct (nth_error (thrs s) t) as [x|] eqn:Hx; try discriminate; exists t, x; auto. }
  destruct Hl as (t & x & Hx & Hl). clear H.
  pose proof (i_run I) as J1. pose proof (i_cnt I) as J2. pose proof (i_ends I) as J3. pose proof (i_starts I) as J4.
  pose proof (i_shape I _ Hx) as J5. pose proof (i_place I _ Hx) as J6. pose proof (i_skip I _ Hx) as J7.
  pose proof (i_one I) as J8. pose proof (i_right I) as J9. pose proof (i_wakeA I) as J10. pose proof (i_wakeB I) as J11.
  pose proof (cE_cR_at _ _ Hx) as J12. pose proof (cW_cQ (thrs s)) as J13.
  pose proof (waiters_have_handles I) as J14.
  assert (J15 : total cQ (thrs s) > cQ x -> exists u z, u <> t /\ nth_error (thrs s) u = Some z /\ cC z = 1 /\ t_handle z = true).
  { intros Hq. sums Hx (Thr PIdle false false). cbn in Q4.
    assert (Hp : total cQ (set_thr (thrs s) t (Thr PIdle false false)) > 0) by (change (cQ (Thr PIdle false false)) with 0 in *; lia).
    destruct (total_pos _ _ Hp) as (u & z & Hz & Hq'). destruct (Nat.eq_dec t u) as [->|Hne].
    - rewrite (nth_set_same _ _ _ Hx) in Hz. injection Hz as <-. cbn in Hq'. lia.
    - rewrite nth_set_other in Hz by assumption. exists u, z. pose proof (i_shape I _ Hz) as Hs. split; [congruence|]. split; [assumption|].
      unfold cQ, cC, shape in *. destruct (t_pc z); try lia; [destruct (t_counted z); cbn in *; [split; congruence|lia]|destruct Hs as [-> ->]; auto]. }
  sums Hx x. clear Q Q0 Q1 Q2 Q3 Q4 Q5.
  assert (K : forall y f n g ev, put s t y f n g ev = Some s' ->
     (shape y /\
     (forall e, In e ev -> match e with ECall v | EStart v | EEnd v | EThrow v | ERet v _ => v = t end) /\
     place_of t (ev ++ hist s) = at_place (t_pc y) /\
     (st s = SComplete -> f = SComplete) /\
     (late (t_pc y) = true -> f = SComplete)) /\
     (total cR (thrs s) + cR y = runs f + cR x /\
     total cC (thrs s) + cC y <= n + cC x /\
     ends (ev ++ hist s) + cE x = compl f + total cE (thrs s) + cE y /\
     starts (ev ++ hist s) + cB x = throws (ev ++ hist s) + ends (ev ++ hist s) + total cB (thrs s) + cB y) /\
     (one_at_a_time (ev ++ hist s) /\ right_returns (ev ++ hist s)) /\
     (f = SComplete -> total cQ (thrs s) + cQ y > cQ x -> g = true \/ total cP (thrs s) + cP y > cP x) /\
     (f = SFree -> total cW (thrs s) + cW y > cW x -> g = true \/ total cP (thrs s) + cP y > cP x) ->
     inv s').
  { intros y f n g ev Hp ((?&?&?&?&?)&(?&?&?&?)&(?&?)&?&?). unfold put in Hp. injection Hp as <-. eapply inv_put; eauto. }
  assert (Z : st s <> SRunning -> cR x = 0) by (intros Hn; destruct (st s); cbn in J1; try congruence; lia).
  destruct x as [p c h]. cbn [t_pc t_counted t_handle] in *.
  destruct l as [u|u|u b]; destruct Hl as [-> Hr].
  - unfold call in Hr. cbn [t_pc t_counted t_handle] in Hr. destruct p; try discriminate. apply K in Hr; [exact Hr|clear K Hr].
    cbn in J5; destruct J5 as [-> ->]. cbn [app]. cbn in *. rewrite Nat.eqb_refl.
    split; [split; [auto|split; [intros e [<-|[]]; reflexivity|split; [auto|split; [auto|discriminate]]]]|].
    split; [lia|]. split; [auto|]. split; intros; [destruct J10; auto; lia|destruct J11; auto; lia].
  - unfold run, goto, open, create in Hr; cbn [t_pc t_counted t_handle] in Hr. destruct p; try discriminate; destruct c, h; cbn in J5; try discriminate; try (destruct J5; discriminate).
    all: repeat (match type of Hr with context [match ?v with _ => _ end] => match v with context [match _ with _ => _ end] => fail 1 | _ => destruct v eqn:? end end; try discriminate).
    all: apply K in Hr; [exact Hr|clear K Hr].
    all: cbn [app t_pc t_counted t_handle]; cbn in *.
    all: try (destruct (st s) eqn:Est; cbn in *; try lia).
    all: try discriminate (J7 eq_refl).
    all: split; [split; [try (repeat split; congruence)|split; [try (intros e [<-|[]]; reflexivity); try (intros e [])|split; [try rewrite Nat.eqb_refl; try congruence|split; [try congruence|try congruence]]]]|].
    all: try congruence.
    all: try (split; [repeat split; try lia|split; [split; auto|split; intros; first [discriminate|left; reflexivity|right; lia|
       match goal with J10 : ?a = ?a -> total _ _ > 0 -> _ \/ _ |- _ => destruct (J10 eq_refl); [lia|left; assumption|right; lia] end|idtac]]]).
    all: try (split; [split; lia|assumption]).
    all: try (assert (HQ : total cQ (thrs s) > 0) by lia; rewrite (J14 HQ); cbn; right; lia).
    all: try (assert (HQ : total cQ (thrs s) > 0) by lia; destruct (J15 HQ) as (v & z & Hv & Hz & Hc & _);
              pose proof (@total_ge2 cC _ _ _ _ _ Hx Hz ltac:(congruence)) as Hcc; cbn in Hcc; rewrite Hc in Hcc;
              destruct (cnt s) as [|[|n]]; first [lia|discriminate]).
    all: try (destruct r; cbn in *; split; try assumption; split; [assumption|]; specialize (J7 eq_refl); try discriminate; lia).
  - unfold finish in Hr. cbn [t_pc t_counted t_handle] in Hr. destruct p; try discriminate. apply K in Hr; [exact Hr|clear K Hr].
    destruct b, c, h; cbn in *; (destruct (st s) eqn:Est; cbn in *; try lia).
    all: try rewrite Nat.eqb_refl.
    all: split; [split; [exact Logic.I|split; [intros e [<-|[]]; reflexivity|split; [reflexivity|split; discriminate]]]|].
    all: split; [lia|]. all: split; [auto|split; discriminate].
Qed.

Lemma inv_reach : forall n s, reach n s -> inv s.
Proof. induction 1; [apply inv_init|eapply inv_step; eauto]. Qed.

(** ** Exactly once *)
Lemma once : forall n s, reach n s -> ends (hist s) <= 1 /\ one_at_a_time (hist s) /\ right_returns (hist s).
Proof.
  intros n s H. apply inv_reach in H. split; [|split; [apply (i_one H)|apply (i_right H)]].
  rewrite (i_ends H). pose proof (cE_cR (thrs s)). rewrite (i_run H) in *. destruct (st s); cbn in *; lia.
Qed.

Lemma in_function : forall s t, inv s -> place_of t (hist s) = InFunction -> exists x, nth_error (thrs s) t = Some x /\ t_pc x = PBody.
Proof.
  intros s t I H. destruct (nth_error (thrs s) t) as [x|] eqn:Hx; [|rewrite (i_out I _ Hx) in H; discriminate].
  exists x. split; [reflexivity|]. rewrite (i_place I _ Hx) in H. destruct (t_pc x) as [| | | | | | | | | | | | | | | | | |r]; try discriminate; [reflexivity|destruct r; discriminate].
Qed.

Lemma no_overlap : forall n s t t', reach n s -> place_of t (hist s) = InFunction -> place_of t' (hist s) = InFunction -> t = t'.
Proof.
  intros n s t t' H H1 H2. apply inv_reach in H. destruct (in_function _ H H1) as (x & Hx & Px). destruct (in_function _ H H2) as (y & Hy & Py).
  destruct (Nat.eq_dec t t') as [E|Hne]; [exact E|exfalso]. pose proof (@total_ge2 cB _ _ _ _ _ Hx Hy Hne) as G.
  pose proof (cE_cR (thrs s)) as G'. rewrite (i_run H) in G'. unfold cB in G at 1 2. rewrite Px, Py in G. destruct (st s); cbn in *; lia.
Qed.

(** ** Nobody is left behind *)
Lemma rest_pc : forall s t x, inv s -> at_rest s -> nth_error (thrs s) t = Some x ->
  t_pc x = PIdle \/ t_pc x = PBody \/ (t_pc x = PWait /\ sig s = false).
Proof.
  intros s t x I Hr Hx. specialize (Hr t). cbn in Hr. rewrite Hx in Hr. unfold run, goto, open, create, put in Hr.
  destruct (t_pc x); auto; try discriminate.
  - destruct (st s); discriminate.
  - destruct (st s); discriminate.
  - destruct (t_counted x); discriminate.
  - destruct (negb (t_handle x) && (1 <? cnt s)); discriminate.
  - destruct (st s), (t_handle x); discriminate.
  - destruct (sig s); [discriminate|auto].
Qed.
Lemma rest_running : forall s, inv s -> at_rest s -> st s = SRunning -> exists t, place_of t (hist s) = InFunction.
Proof.
  intros s I Hr Hs. assert (H : total cR (thrs s) > 0) by (rewrite (i_run I), Hs; cbn; lia). destruct (total_pos _ _ H) as (t & x & Hx & Hc).
  exists t. rewrite (i_place I _ Hx). destruct (rest_pc _ I Hr Hx) as [E|[E|[E _]]]; unfold cR in Hc; rewrite E in *; try lia. reflexivity.
Qed.
Lemma rest_waiter : forall s t x, inv s -> at_rest s -> nth_error (thrs s) t = Some x -> t_pc x = PWait -> st s = SRunning.
Proof.
  intros s t x I Hr Hx Hp. pose proof (total_ge cW (thrs s) t Hx) as Gw. unfold cW in Gw at 1. rewrite Hp in Gw. pose proof (cW_cQ (thrs s)) as Gq.
  assert (Hsig : sig s = false) by (destruct (rest_pc _ I Hr Hx) as [E|[E|[_ E]]]; congruence).
  assert (Hz : total cP (thrs s) = 0).
  { apply total_zero. intros u z Hz. destruct (rest_pc _ I Hr Hz) as [E|[E|[E _]]]; unfold cP; now rewrite E. }
  destruct (st s) eqn:Es; [exfalso|reflexivity|exfalso].
  - destruct (i_wakeB I Es); [lia|congruence|lia].
  - destruct (i_wakeA I Es); [lia|congruence|lia].
Qed.
Lemma not_left_behind : forall n s t, reach n s -> at_rest s -> place_of t (hist s) <> Outside -> exists t', place_of t' (hist s) = InFunction.
Proof.
  intros n s t H Hr Ht. apply inv_reach in H. destruct (nth_error (thrs s) t) as [x|] eqn:Hx; [|rewrite (i_out H _ Hx) in Ht; congruence].
  destruct (rest_pc _ H Hr Hx) as [E|[E|[E _]]].
  - rewrite (i_place H _ Hx), E in Ht. cbn in Ht. congruence.
  - exists t. now rewrite (i_place H _ Hx), E.
  - apply rest_running; auto. eapply rest_waiter; eauto.
Qed.

(** ** The next caller tries again *)
Lemma retry : forall n s t, reach n s -> at_rest s -> (forall u, place_of u (hist s) <> InFunction) -> ends (hist s) = 0 -> t < n ->
  exists s', runl s [LCall t; LRun t; LRun t; LRun t; LRun t] = Some s' /\ place_of t (hist s') = InFunction.
Proof.
  intros n s t H Hr Hn He Ht.
  assert (Hlen : length (thrs s) = n).
  { clear -H. induction H as [|s l s' _ IH Hs]; [apply repeat_length|]. rewrite <- IH.
    destruct l as [u|u|u b]; cbn in Hs; destruct (nth_error (thrs s) u) as [x|]; try discriminate;
      unfold call, finish, run, goto, open, create, put in Hs;
      repeat (match type of Hs with context [match ?v with _ => _ end] => match v with context [match _ with _ => _ end] => fail 1 | _ => destruct v eqn:? end end; try discriminate);
      injection Hs as <-; apply length_set. }
  assert (I := inv_reach H).
  assert (Hst : st s = SFree).
  { destruct (st s) eqn:Es; [reflexivity| |].
    - destruct (rest_running I Hr Es) as (u & Hu). now elim (Hn u).
    - pose proof (i_ends I) as G. rewrite Es in G. cbn in G. lia. }
  destruct (nth_error (thrs s) t) as [x|] eqn:Hx; [|apply nth_error_None in Hx; lia].
  assert (Hp : t_pc x = PIdle).
  { destruct (rest_pc _ I Hr Hx) as [E|[E|[E _]]]; [exact E| |].
    - elim (Hn t). now rewrite (i_place I _ Hx), E.
    - pose proof (rest_waiter _ I Hr Hx E). congruence. }
  cbn [runl exec]. rewrite Hx. unfold call. rewrite Hp. unfold put.
  cbn [runl exec thrs]. rewrite (nth_set_same _ _ _ Hx). unfold run at 1. cbn [t_pc st]. rewrite Hst. unfold goto, put. cbn [thrs st cnt sig hist t_counted t_handle].
  set (l1 := set_thr (thrs s) t _). assert (H1 : nth_error l1 t = Some (Thr PLoop false false)) by (apply (nth_set_same _ _ _ Hx)).
  set (l2 := set_thr l1 t _). assert (H2 : nth_error l2 t = Some (Thr PEnter false false)) by (apply (nth_set_same _ _ _ H1)).
  rewrite H2. unfold run at 1. cbn [t_pc st]. unfold put. cbn [thrs st cnt sig hist t_counted t_handle].
  set (l3 := set_thr l2 t _). assert (H3 : nth_error l3 t = Some (Thr POpen false false)) by (apply (nth_set_same _ _ _ H2)).
  rewrite H3. unfold run at 1. cbn [t_pc]. unfold open, put. cbn [thrs st cnt sig hist t_counted t_handle].
  set (e := exists_event _). set (l4 := set_thr l3 t _). assert (H4 : nth_error l4 t = Some (Thr PReset false e)) by (apply (nth_set_same _ _ _ H3)).
  rewrite H4. unfold run at 1. cbn [t_pc]. unfold put. eexists. split; [reflexivity|]. cbn. now rewrite Nat.eqb_refl.
Qed.
