(** * Invariants of testable_mutex *)
From Verif Require Import TK_Model TK_Spec.
Set Implicit Arguments.

Lemma nth_upd {A} (l : list A) t x t' : nth_error (upd l t x) t' = if t' =? t then (if t <? length l then Some x else None) else nth_error l t'.
Proof.
  revert t t'. induction l as [|a l IH]; intros [|t] [|t']; cbn; auto; try (destruct (t' =? t); reflexivity).
  rewrite IH. destruct (t' =? t); reflexivity.
Qed.

Definition owning (p : pc) : bool := match p with TGot _ | THold | TCleared => true | _ => false end.
(** what holds of what the queries return *)
Definition good (e : event) (h : list event) : Prop :=
  match e with
  | EMine t b => b = holds t h
  | EIs _ b => if b then exists u, holds u h = true else forall u, holds u h = false
  | EGet _ o => forall u, o = Some u <-> holds u h = true
  | _ => True
  end.
Fixpoint goods (h : list event) : Prop := match h with [] => True | e :: h' => good e h' /\ goods h' end.

Record inv (s : tk) : Prop := MkInv {
  i_own : forall t p, nth_error (pcs s) t = Some p -> (owning p = true <-> own s = Some t);
  i_lt : forall t, own s = Some t -> t < length (pcs s);
  i_id : forall t, id s = Some t <-> nth_error (pcs s) t = Some THold;
  i_holds : forall t, holds t (hist s) = match nth_error (pcs s) t with Some THold => true | _ => false end;
  i_un : forall t, unlocking t (hist s) = match nth_error (pcs s) t with Some TCleared => true | _ => false end;
  i_lk : forall t, locking t (hist s) = match nth_error (pcs s) t with Some (TWait _) | Some (TGot _) => true | _ => false end;
  i_good : goods (hist s) }.

Lemma nth_repeat n t p : nth_error (repeat TIdle n) t = Some p -> p = TIdle.
Proof. intros E. apply nth_error_In, repeat_spec in E. exact E. Qed.

Lemma inv0 n : inv (tk0 n).
Proof.
  constructor; cbn; auto.
  - intros t p E. apply nth_repeat in E. subst. split; discriminate.
  - discriminate.
  - intros t. split; [discriminate|]. intros E. apply nth_repeat in E. discriminate.
  - intros t. destruct (nth_error _ t) eqn:E; [apply nth_repeat in E; subst|]; reflexivity.
  - intros t. destruct (nth_error _ t) eqn:E; [apply nth_repeat in E; subst|]; reflexivity.
  - intros t. destruct (nth_error _ t) eqn:E; [apply nth_repeat in E; subst|]; reflexivity.
Qed.

Lemma hold_one s t : inv s -> id s = Some t -> holds t (hist s) = true.
Proof. intros I E. rewrite (i_holds I). apply (i_id I) in E. rewrite E. reflexivity. Qed.
Lemma hold_none s t : inv s -> id s <> Some t -> holds t (hist s) = false.
Proof.
  intros I E. rewrite (i_holds I). destruct (nth_error (pcs s) t) as [[]|] eqn:X; auto. exfalso. apply E, (i_id I), X.
Qed.

(** the cases of another thread and of this one *)
Ltac cases t T L :=
  let u := fresh "u" in intros u; rewrite ?nth_upd;
  let E := fresh "E" in destruct (u =? t) eqn:E;
  [apply Nat.eqb_eq in E; subst u; assert (L : t < length _) by (apply nth_error_Some; rewrite T; discriminate)|].

Lemma eqb_sym_false a b : (a =? b) = false -> (b =? a) = false.
Proof. rewrite !Nat.eqb_neq. auto. Qed.

Lemma inv_query s e : inv s -> (forall t, holds t (e :: hist s) = holds t (hist s)) -> (forall t, unlocking t (e :: hist s) = unlocking t (hist s)) ->
  (forall t, locking t (e :: hist s) = locking t (hist s)) -> good e (hist s) -> inv (MkT (own s) (id s) (pcs s) (e :: hist s)).
Proof.
  intros [O Lt D H U K G] X1 X2 X3 X4. constructor; cbn [own id pcs hist]; auto.
  - intros t. rewrite X1. apply H.
  - intros t. rewrite X2. apply U.
  - intros t. rewrite X3. apply K.
  - split; assumption.
Qed.

Lemma len_upd {A} (l : list A) t x : length (upd l t x) = length l.
Proof. revert t. induction l as [|a l IH]; intros [|t]; cbn; auto. Qed.

(** one step of thread [t] *)
Lemma inv_step s t p p' o d es : inv s -> nth_error (pcs s) t = Some p ->
  (* the mutex *)
  (o = own s /\ owning p' = owning p \/ o = Some t /\ own s = None /\ owning p' = true \/ o = None /\ owning p = true /\ owning p' = false) ->
  (* the id *)
  (d = id s /\ p <> THold /\ p' <> THold \/ d = Some t /\ owning p = true /\ p' = THold \/ d = None /\ p = THold /\ p' <> THold) ->
  (forall u, holds u (es ++ hist s) = if u =? t then match p' with THold => true | _ => false end else holds u (hist s)) ->
  (forall u, unlocking u (es ++ hist s) = if u =? t then match p' with TCleared => true | _ => false end else unlocking u (hist s)) ->
  (forall u, locking u (es ++ hist s) = if u =? t then match p' with TWait _ | TGot _ => true | _ => false end else locking u (hist s)) ->
  goods (es ++ hist s) ->
  inv (MkT o d (upd (pcs s) t p') (es ++ hist s)).
Proof.
  intros [O Lt D H U K G] T M I X1 X2 X3 X4.
  assert (L : t < length (pcs s)) by (apply nth_error_Some; rewrite T; discriminate).
  assert (L2 : (t <? length (pcs s)) = true) by (apply Nat.ltb_lt, L).
  pose proof (O _ _ T) as Ot.
  constructor; cbn [own id pcs hist].
  - intros u pu. rewrite nth_upd. destruct (u =? t) eqn:E.
    + apply Nat.eqb_eq in E. subst u. rewrite L2. intros X. injection X as <-.
      destruct M as [(-> & ->)|[(-> & _ & ->)|(-> & _ & ->)]]; [exact Ot|tauto|]. split; discriminate.
    + intros X. apply Nat.eqb_neq in E. destruct M as [(-> & _)|[(-> & Y & _)|(-> & Y & _)]]; [exact (O _ _ X)| |].
      * rewrite (O _ _ X), Y. split; [discriminate|]. intros Z. injection Z as <-. congruence.
      * rewrite (O _ _ X). apply Ot in Y. rewrite Y. split; [|discriminate]. intros Z. injection Z as ->. congruence.
  - intros u X. rewrite len_upd. destruct M as [(-> & _)|[(-> & _)|(-> & _)]]; [exact (Lt _ X)|injection X as <-; exact L|discriminate].
  - intros u. rewrite nth_upd. destruct (u =? t) eqn:E.
    + apply Nat.eqb_eq in E. subst u. rewrite L2.
      destruct I as [(-> & Y & Z)|[(-> & Y & ->)|(-> & Y & Z)]].
      * rewrite D, T. split; intros W; injection W as W; congruence.
      * tauto.
      * split; [discriminate|]. intros W. injection W as W. congruence.
    + apply Nat.eqb_neq in E. destruct I as [(-> & _)|[(-> & Y & ->)|(-> & -> & Z)]]; [apply D| |].
      * split; [intros W; injection W as <-; congruence|]. intros W.
        assert (own s = Some u) as W1 by (apply (O _ _ W); reflexivity). apply Ot in Y. congruence.
      * split; [discriminate|]. intros W. apply D in W. apply D in T. congruence.
  - intros u. rewrite X1, nth_upd, L2. destruct (u =? t); [reflexivity|apply H].
  - intros u. rewrite X2, nth_upd, L2. destruct (u =? t); [reflexivity|apply U].
  - intros u. rewrite X3, nth_upd, L2. destruct (u =? t); [reflexivity|apply K].
  - exact X4.
Qed.

Ltac flags s I T := intros u; cbn [app holds unlocking locking]; rewrite ?(Nat.eqb_sym _ u);
  let E := fresh "E" in destruct (u =? _) eqn:E; [apply Nat.eqb_eq in E; subst u|]; cbn; rewrite ?(i_holds I), ?(i_un I), ?(i_lk I), ?T; reflexivity.

Lemma inv_exec s l s' : inv s -> exec s l = Some s' -> inv s'.
Proof.
  intros I X. destruct l as [t tm|t|t|t|t|t|t|t|t]; cbn [exec] in X; destruct (nth_error (pcs s) t) as [p|] eqn:T; try discriminate.
  - destruct p; try discriminate. injection X as <-.
    apply (@inv_step s t TIdle (TWait tm) (own s) (id s) [ECall t] I T); try flags s I T; [left; auto|left; repeat split; discriminate|split; [exact Logic.I|exact (i_good I)]].
  - destruct p as [|tm|tm| |]; try discriminate. destruct (own s) eqn:O; [discriminate|]. injection X as <-.
    apply (@inv_step s t (TWait tm) (TGot tm) (Some t) (id s) [] I T); try flags s I T; [right; left; auto|left; repeat split; discriminate|exact (i_good I)].
  - destruct p as [|[]|tm| |]; try discriminate. injection X as <-.
    apply (@inv_step s t (TWait true) TIdle (own s) (id s) [EFailed t] I T); try flags s I T; [left; auto|left; repeat split; discriminate|split; [exact Logic.I|exact (i_good I)]].
  - destruct p as [|tm|tm| |]; try discriminate. injection X as <-.
    apply (@inv_step s t (TGot tm) THold (own s) (Some t) [ELocked t] I T); try flags s I T; [left; auto|right; left; auto|split; [exact Logic.I|exact (i_good I)]].
  - destruct p as [|tm|tm| |]; try discriminate. injection X as <-.
    apply (@inv_step s t THold TCleared (own s) None [EUnlock t] I T); try flags s I T; [left; auto|right; right; repeat split; discriminate|split; [exact Logic.I|exact (i_good I)]].
  - destruct p as [|tm|tm| |]; try discriminate. injection X as <-.
    apply (@inv_step s t TCleared TIdle None (id s) [EUnlocked t] I T); try flags s I T; [right; right; auto|left; repeat split; discriminate|split; [exact Logic.I|exact (i_good I)]].
  - destruct (outside p); [|discriminate]. injection X as <-. apply inv_query; auto. cbn.
    destruct (id s) as [u|] eqn:E; [destruct (t =? u) eqn:Q|].
    + apply Nat.eqb_eq in Q. subst u. symmetry. apply hold_one; auto.
    + symmetry. apply hold_none; auto. intros Y. rewrite E in Y. injection Y as ->. rewrite Nat.eqb_refl in Q. discriminate.
    + symmetry. apply hold_none; auto. congruence.
  - destruct (outside p); [|discriminate]. injection X as <-. apply inv_query; auto. cbn.
    destruct (id s) as [u|] eqn:E; cbn; [exists u; apply hold_one; auto|]. intros u. apply hold_none; auto. congruence.
  - destruct (outside p); [|discriminate]. injection X as <-. apply inv_query; auto. cbn.
    intros u. rewrite (i_id I), (i_holds I). destruct (nth_error (pcs s) u) as [[]|]; split; congruence.
Qed.

Lemma inv_reach n s : reach n s -> inv s.
Proof.
  intros (ls & R). assert (G : forall s0, inv s0 -> runl s0 ls = Some s -> inv s).
  { clear R. induction ls as [|l ls IH]; intros s0 I R; cbn in R; [injection R as <-; exact I|].
    destruct (exec s0 l) as [s1|] eqn:X; [|discriminate]. exact (IH _ (@inv_exec s0 l s1 I X) R). }
  exact (G _ (inv0 n) R).
Qed.
Lemma goods_mid h2 e h1 : goods (h2 ++ e :: h1) -> good e h1.
Proof. induction h2 as [|x h2 IH]; cbn; [intros (G & _); exact G|intros (_ & G); exact (IH G)]. Qed.
