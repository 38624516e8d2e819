(** * The control blocks of threads and their reference counts on Windows (proofs) *)
From Verif Require Import WR_Model WR_Spec.

Lemma upd_eq : forall A (f : nat -> A) t x, upd f t x t = x.
Proof. intros. unfold upd. now rewrite Nat.eqb_refl. Qed.
Lemma upd_ne : forall A (f : nat -> A) t x u, u <> t -> upd f t x u = f u.
Proof. intros. unfold upd. destruct (u =? t) eqn:E; auto. apply Nat.eqb_eq in E. contradiction. Qed.

Fixpoint cb (b : nat) (l : list ptr) : nat := match l with [] => 0 | p :: r => (if p_b p =? b then 1 else 0) + cb b r end.
Fixpoint db (b : nat) (l : list (nat * nat)) : nat := match l with [] => 0 | p :: r => (if snd p =? b then 1 else 0) + db b r end.
Lemma cb_app : forall b l r, cb b (l ++ r) = cb b l + cb b r.
Proof. intros b l r. induction l as [|p l IH]; cbn; [reflexivity|]. rewrite IH. lia. Qed.
Lemma db_app : forall b l r, db b (l ++ r) = db b l + db b r.
Proof. intros b l r. induction l as [|p l IH]; cbn; [reflexivity|]. rewrite IH. lia. Qed.
Lemma cb_in : forall b l p, In p l -> p_b p = b -> 1 <= cb b l.
Proof. intros b l p. induction l as [|q l IH]; cbn; intros H E; [easy|]. destruct H as [->|H]; [rewrite E, Nat.eqb_refl; lia|]. specialize (IH H E). lia. Qed.
Lemma db_in : forall t b l, In (t, b) l -> 1 <= db b l.
Proof. intros t b l. induction l as [|q l IH]; cbn; intros H; [easy|]. destruct H as [->|H]; [cbn; rewrite Nat.eqb_refl; lia|]. specialize (IH H). lia. Qed.
Lemma cb_ex : forall b l, 1 <= cb b l -> exists p, In p l /\ p_b p = b.
Proof.
  intros b l. induction l as [|q l IH]; cbn; intros H; [lia|]. destruct (p_b q =? b) eqn:E.
  - apply Nat.eqb_eq in E. exists q. auto.
  - destruct IH as (p & A & B); [lia|]. exists p. auto.
Qed.
Lemma db_ex : forall b l, 1 <= db b l -> exists t, In (t, b) l.
Proof.
  intros b l. induction l as [|[t c] l IH]; cbn; intros H; [lia|]. destruct (c =? b) eqn:E.
  - apply Nat.eqb_eq in E. subst c. exists t. auto.
  - destruct IH as (t' & A); [lia|]. exists t'. auto.
Qed.

(** The accesses to a block, and which block an event is about. *)
Definition acc (b e : nat) (h : list ev) : Prop := (exists t saw, In (EvUse t b e saw) h) \/ (exists t, In (EvNew t b e) h).
Definition about (x : ev) : nat := match x with EvNew _ b _ | EvStart _ b _ | EvUse _ b _ _ | EvEnd _ b | EvFree _ b _ => b end.
Fixpoint wellh (h : list ev) : Prop :=
  match h with
  | [] => True
  | x :: r => match x with
      | EvNew _ _ _ => True
      | EvUse _ b _ _ | EvStart _ b _ | EvEnd _ b => ~ freed b r
      | EvFree _ b saw => ~ freed b r /\ (forall e, acc b e r -> In e saw) /\ (forall t' u, In (EvStart t' b u) r -> In (EvEnd u b) r)
      end /\ wellh r
  end.
Lemma wellh_app : forall l h, wellh (l ++ h) -> wellh h.
Proof. induction l as [|x l IH]; intros h W; auto. apply IH. now destruct W. Qed.
Lemma wellh_spec : forall h, wellh h -> no_use_after_free h /\ frees_see h /\ free_after_end h.
Proof.
  intros h W. split; [|split].
  - intros l x b ->. apply wellh_app in W. destruct W as [W _]. destruct x; tauto.
  - intros l t b saw bf ->. apply wellh_app in W. destruct W as [(_ & W & _) _]. split; intros; apply W; [left|right]; eauto.
  - intros l t b saw bf ->. apply wellh_app in W. destruct W as [(_ & _ & W) _]. exact W.
Qed.

Record INV (s : st) : Prop := {
  i_live : forall b, live s b = true -> b < nb s /\ cnt s b = cb b (ptrs s) /\ db b (dying s) = (if cb b (ptrs s) =? 0 then 1 else 0);
  i_dead : forall b, live s b = false -> cb b (ptrs s) = 0 /\ db b (dying s) = 0;
  i_free : forall b, freed b (log s) <-> b < nb s /\ live s b = false;
  i_bnd : forall x, In x (log s) -> about x < nb s;
  i_addr : forall b b', live s b = true -> live s b' = true -> addr s b = addr s b' -> b = b';
  i_acc : forall b e, live s b = true -> 1 <= cb b (ptrs s) -> acc b e (log s) ->
    In e (cvw s b) \/ exists p, In p (ptrs s) /\ p_b p = b /\ In e (vw s (p_t p));
  i_dy : forall t b e, In (t, b) (dying s) -> acc b e (log s) -> In e (vw s t);
  i_self : forall t b u, In (EvStart t b u) (log s) -> live s b = true -> In (Ptr u b KSelf) (ptrs s) \/ In (EvEnd u b) (log s);
  i_well : wellh (log s) }.

Lemma INV_init : INV start.
Proof.
  constructor; cbn; try easy.
  intros b. split; [intros (t & saw & [])|lia].
Qed.
Lemma live_ptr : forall s p, INV s -> In p (ptrs s) -> live s (p_b p) = true.
Proof.
  intros s p I H. destruct (live s (p_b p)) eqn:E; auto. destruct (i_dead _ I _ E) as [Z _]. pose proof (cb_in (p_b p) _ _ H eq_refl). lia.
Qed.
Lemma live_dying : forall s t b, INV s -> In (t, b) (dying s) -> live s b = true /\ cb b (ptrs s) = 0.
Proof.
  intros s t b I H. pose proof (db_in _ _ _ H) as D. destruct (live s b) eqn:E.
  - destruct (i_live _ I _ E) as (_ & _ & K). split; auto. destruct (cb b (ptrs s) =? 0) eqn:Z; [now apply Nat.eqb_eq|lia].
  - destruct (i_dead _ I _ E) as [_ Z]. lia.
Qed.
Lemma not_freed : forall s b, INV s -> live s b = true -> ~ freed b (log s).
Proof. intros s b I L F. apply (i_free _ I) in F. destruct F as [_ F]. congruence. Qed.
Lemma freed_cons : forall b x h, (forall t saw, x <> EvFree t b saw) -> (freed b (x :: h) <-> freed b h).
Proof.
  intros b x h N. split; intros (t & saw & H).
  - destruct H as [H|H]; [now destruct (N t saw)|now exists t, saw].
  - exists t, saw. now right.
Qed.
Lemma acc_cons : forall b e x h, acc b e (x :: h) -> acc b e h \/ (exists t saw, x = EvUse t b e saw) \/ (exists t, x = EvNew t b e).
Proof. intros b e x h [(t & saw & [H|H])|(t & [H|H])]; subst; unfold acc; eauto 7. Qed.
Lemma acc_bound : forall s b e, INV s -> acc b e (log s) -> b < nb s.
Proof. intros s b e I [(t & saw & H)|(t & H)]; exact (i_bnd _ I _ H). Qed.

Definition grows (V V' : nat -> list nat) : Prop := forall t e, In e (V t) -> In e (V' t).
Lemma grows_refl : forall V, grows V V. Proof. now intros V t e. Qed.
Lemma grows_upd : forall V t v, (forall e, In e (V t) -> In e v) -> grows V (upd V t v).
Proof. intros V t v H u e K. destruct (Nat.eq_dec u t) as [->|N]; [rewrite upd_eq; auto|now rewrite upd_ne]. Qed.
Lemma grows_app : forall V t l, grows V (upd V t (V t ++ l)).
Proof. intros V t l. apply grows_upd. intros e H. apply in_or_app. auto. Qed.

(** A new pointer to a block that has one. *)
Lemma INV_more : forall s p q V x K, INV s -> In p (ptrs s) -> p_b q = p_b p -> grows (vw s) V ->
  (x = [] \/ exists t, x = [EvStart t (p_b p) (p_t q)] /\ p_k q = KSelf) ->
  INV (MkSt (nb s) (addr s) (live s) (upd (cnt s) (p_b p) (add_ref (cnt s (p_b p)))) (cvw s) (q :: ptrs s) (dying s) K V (x ++ log s) (nexte s)).
Proof.
  intros s p q V x K I Hp Hq G Hx. pose proof (live_ptr _ _ I Hp) as L. pose proof (cb_in (p_b p) _ _ Hp eq_refl) as C.
  assert (FX : forall b, freed b (x ++ log s) <-> freed b (log s)).
  { intros b. destruct Hx as [->|(t & -> & _)]; [reflexivity|]. apply freed_cons. discriminate. }
  assert (AX : forall b e, acc b e (x ++ log s) -> acc b e (log s)).
  { intros b e H. destruct Hx as [->|(t & -> & _)]; [exact H|]. destruct (acc_cons _ _ _ _ H) as [A|[(t' & sw & A)|(t' & A)]]; [auto|discriminate..]. }
  constructor; cbn [nb addr live cnt cvw ptrs dying known vw log].
  - intros b Lb. destruct (i_live _ I _ Lb) as (A & B & D). split; [auto|]. cbn [cb]. rewrite Hq. destruct (p_b p =? b) eqn:E.
    + apply Nat.eqb_eq in E. subst b. rewrite upd_eq. unfold add_ref. split; [lia|]. rewrite D. destruct (cb (p_b p) (ptrs s)); [lia|reflexivity].
    + apply Nat.eqb_neq in E. rewrite upd_ne by auto. split; auto.
  - intros b Lb. destruct (i_dead _ I _ Lb) as [A B]. split; auto. cbn [cb]. rewrite Hq. destruct (p_b p =? b) eqn:E; [apply Nat.eqb_eq in E; congruence|auto].
  - intros b. rewrite FX. apply (i_free _ I).
  - intros y Hy. apply in_app_or in Hy. destruct Hy as [Hy|Hy]; [|now apply (i_bnd _ I)]. destruct Hx as [->|(t & -> & _)]; [easy|].
    destruct Hy as [<-|[]]. cbn. apply (i_live _ I _ L).
  - apply (i_addr _ I).
  - intros b e Lb Cn A. apply AX in A. assert (Cb : 1 <= cb b (ptrs s) \/ cb b (ptrs s) = 0) by lia. destruct Cb as [Cb|Cb].
    + destruct (i_acc _ I _ _ Lb Cb A) as [A'|(r & R1 & R2 & R3)]; [auto|right]. exists r. split; [now right|]. split; [auto|]. now apply G.
    + exfalso. cbn [cb] in Cn. rewrite Hq, Cb in Cn. destruct (p_b p =? b) eqn:E; [apply Nat.eqb_eq in E; subst b; lia|lia].
  - intros t b e H A. apply G. eapply (i_dy _ I); eauto.
  - intros t b u H Lb. apply in_app_or in H. destruct H as [H|H].
    + destruct Hx as [->|(t' & -> & Ek)]; [easy|]. destruct H as [H|[]]. injection H as _ <- <-. left. left. destruct q. cbn in *. congruence.
    + destruct (i_self _ I _ _ _ H Lb) as [A|A]; [left; now right|right; apply in_or_app; auto].
  - destruct Hx as [->|(t' & -> & Ek)]; [apply (i_well _ I)|]. split; [now apply not_freed|apply (i_well _ I)].
Qed.
(** A new block. *)
Lemma INV_new : forall s t a k V x K, INV s -> (forall b, b < nb s -> live s b = true -> addr s b <> a) -> grows (vw s) V -> In (nexte s) (V t) ->
  (x = [] \/ x = [EvStart t (nb s) t] /\ k = KSelf) ->
  INV (MkSt (S (nb s)) (upd (addr s) (nb s) a) (upd (live s) (nb s) true) (upd (cnt s) (nb s) 1) (upd (cvw s) (nb s) [])
        (Ptr t (nb s) k :: ptrs s) (dying s) K V (x ++ EvNew t (nb s) (nexte s) :: log s) (S (nexte s))).
Proof.
  intros s t a k V x K I Ha G Hv Hx.
  assert (Ln : live s (nb s) = false). { destruct (live s (nb s)) eqn:E; auto. destruct (i_live _ I _ E). lia. }
  destruct (i_dead _ I _ Ln) as [Cn Dn].
  assert (FX : forall b, freed b (x ++ EvNew t (nb s) (nexte s) :: log s) <-> freed b (log s)).
  { intros b. assert (F1 : freed b (EvNew t (nb s) (nexte s) :: log s) <-> freed b (log s)) by (apply freed_cons; discriminate).
    destruct Hx as [->|[-> _]]; [exact F1|]. rewrite <- F1. apply freed_cons. discriminate. }
  assert (Fn : ~ freed (nb s) (log s)) by (intros F; apply (i_free _ I) in F; lia).
  assert (AX : forall b e, acc b e (x ++ EvNew t (nb s) (nexte s) :: log s) -> acc b e (log s) \/ b = nb s /\ e = nexte s).
  { intros b e H. assert (H' : acc b e (EvNew t (nb s) (nexte s) :: log s)).
    { destruct Hx as [->|[-> _]]; [exact H|]. destruct (acc_cons _ _ _ _ H) as [A|[(t' & sw & A)|(t' & A)]]; [auto|discriminate..]. }
    destruct (acc_cons _ _ _ _ H') as [A|[(t' & sw & A)|(t' & A)]]; [auto|discriminate|]. injection A as _ <- <-. auto. }
  constructor; cbn [nb addr live cnt cvw ptrs dying known vw log].
  - intros b Lb. cbn [cb p_b]. destruct (Nat.eq_dec b (nb s)) as [->|N].
    + rewrite upd_eq, Nat.eqb_refl, Cn, Dn. split; [lia|split; reflexivity].
    + rewrite upd_ne in * by auto. destruct (i_live _ I _ Lb) as (A & B & D). destruct (nb s =? b) eqn:E; [apply Nat.eqb_eq in E; congruence|]. cbn. repeat split; auto; lia.
  - intros b Lb. cbn [cb p_b]. destruct (Nat.eq_dec b (nb s)) as [->|N]; [rewrite upd_eq in Lb; discriminate|]. rewrite upd_ne in Lb by auto.
    destruct (nb s =? b) eqn:E; [apply Nat.eqb_eq in E; congruence|]. exact (i_dead _ I _ Lb).
  - intros b. rewrite FX. destruct (Nat.eq_dec b (nb s)) as [->|N].
    + rewrite upd_eq. split; [easy|intros []; discriminate].
    + rewrite upd_ne by auto. rewrite (i_free _ I b). split; intros []; split; auto; lia.
  - intros y Hy. assert (Hy' : In y (EvStart t (nb s) t :: EvNew t (nb s) (nexte s) :: log s)) by (destruct Hx as [->|[-> _]]; [now right|exact Hy]).
    destruct Hy' as [<-|[<-|Hy']]; cbn; try lia. pose proof (i_bnd _ I _ Hy'). lia.
  - intros b b' Lb Lb' E. destruct (Nat.eq_dec b (nb s)) as [->|N]; destruct (Nat.eq_dec b' (nb s)) as [->|N']; auto.
    + rewrite upd_eq in E. rewrite upd_ne in E, Lb' by auto. destruct (Ha b'); auto. apply (i_live _ I _ Lb').
    + rewrite upd_eq in E. rewrite upd_ne in E, Lb by auto. destruct (Ha b); auto. apply (i_live _ I _ Lb).
    + rewrite !upd_ne in * by auto. now apply (i_addr _ I).
  - intros b e Lb C A. destruct (Nat.eq_dec b (nb s)) as [->|N].
    + right. exists (Ptr t (nb s) k). split; [now left|]. split; [reflexivity|]. cbn. destruct (AX _ _ A) as [A'|[_ ->]]; [|auto].
      pose proof (acc_bound _ _ _ I A'). lia.
    + destruct (AX _ _ A) as [A'|[? _]]; [|congruence]. rewrite !upd_ne in * by auto. cbn [cb p_b] in C. destruct (nb s =? b) eqn:E; [apply Nat.eqb_eq in E; congruence|].
      destruct (i_acc _ I _ _ Lb C A') as [B|(r & R1 & R2 & R3)]; [auto|right]. exists r. split; [now right|]. split; [auto|]. now apply G.
  - intros t' b e H A. destruct (AX _ _ A) as [A'|[-> _]]; [apply G; eapply (i_dy _ I); eauto|]. pose proof (db_in _ _ _ H). lia.
  - intros t' b u H Lb. assert (H' : In (EvStart t' b u) (log s) \/ (x <> [] /\ b = nb s /\ u = t)).
    { destruct Hx as [->|[-> _]]; cbn in H; destruct H as [H|H]; try discriminate; auto.
      - injection H as _ <- <-. right. repeat split. discriminate.
      - destruct H as [H|H]; [discriminate|auto]. }
    destruct H' as [H'|(Nx & -> & ->)].
    + destruct (Nat.eq_dec b (nb s)) as [->|N]; [pose proof (i_bnd _ I _ H'); cbn in *; lia|]. rewrite upd_ne in Lb by auto.
      destruct (i_self _ I _ _ _ H' Lb) as [A|A]; [left; now right|right]. apply in_or_app. right. now right.
    + destruct Hx as [->|[-> ->]]; [easy|]. left. now left.
  - destruct Hx as [->|[-> _]]; cbn [app wellh].
    + split; [auto|apply (i_well _ I)].
    + split; [|split; [auto|apply (i_well _ I)]]. intros F. apply freed_cons in F; [auto|discriminate].
Qed.
(** Steps that change neither blocks nor pointers. *)
Lemma INV_view : forall s V x e, INV s -> grows (vw s) V ->
  (x = [] \/ (exists p saw, In p (ptrs s) /\ x = [EvUse (p_t p) (p_b p) (nexte s) saw] /\ In (nexte s) (V (p_t p))) \/ (exists p, In p (ptrs s) /\ x = [EvEnd (p_t p) (p_b p)])) ->
  INV (MkSt (nb s) (addr s) (live s) (cnt s) (cvw s) (ptrs s) (dying s) (known s) V (x ++ log s) e).
Proof.
  intros s V x e' I G Hx.
  assert (FX : forall b, freed b (x ++ log s) <-> freed b (log s)).
  { intros b. destruct Hx as [->|[(p & sw & _ & -> & _)|(p & _ & ->)]]; [reflexivity|..]; apply freed_cons; discriminate. }
  assert (AX : forall b e, acc b e (x ++ log s) -> acc b e (log s) \/ exists p, In p (ptrs s) /\ p_b p = b /\ In e (V (p_t p))).
  { intros b e H. destruct Hx as [->|[(p & sw & Hp & -> & Hv)|(p & _ & ->)]]; [auto|..]; destruct (acc_cons _ _ _ _ H) as [A|[(t' & sw' & A)|(t' & A)]]; auto; try discriminate.
    injection A as _ <- <- _. right. exists p. auto. }
  constructor; cbn [nb addr live cnt cvw ptrs dying known vw log].
  - apply (i_live _ I).
  - apply (i_dead _ I).
  - intros b. rewrite FX. apply (i_free _ I).
  - intros y Hy. apply in_app_or in Hy. destruct Hy as [Hy|Hy]; [|now apply (i_bnd _ I)].
    destruct Hx as [->|[(p & sw & Hp & -> & _)|(p & Hp & ->)]]; [easy|..]; destruct Hy as [<-|[]]; cbn; apply (i_live _ I), live_ptr; auto.
  - apply (i_addr _ I).
  - intros b e Lb C A. destruct (AX _ _ A) as [A'|A']; [|auto]. destruct (i_acc _ I _ _ Lb C A') as [B|(r & R1 & R2 & R3)]; [auto|right]. exists r. split; [auto|]. split; [auto|]. now apply G.
  - intros t b e H A. destruct (AX _ _ A) as [A'|(p & P1 & P2 & _)]; [apply G; eapply (i_dy _ I); eauto|]. destruct (live_dying _ _ _ I H) as [_ Z]. pose proof (cb_in b _ _ P1 P2). lia.
  - intros t b u H Lb. assert (H' : In (EvStart t b u) (log s)).
    { apply in_app_or in H. destruct H as [H|H]; [|auto]. destruct Hx as [->|[(p & sw & _ & -> & _)|(p & _ & ->)]]; [easy|..]; destruct H as [H|[]]; discriminate. }
    destruct (i_self _ I _ _ _ H' Lb) as [A|A]; [auto|right; apply in_or_app; auto].
  - destruct Hx as [->|[(p & sw & Hp & -> & _)|(p & Hp & ->)]]; [apply (i_well _ I)|..]; (split; [apply not_freed; auto; now apply live_ptr|apply (i_well _ I)]).
Qed.
Lemma in_mid : forall A (l1 l2 : list A) x y, In y (l1 ++ x :: l2) <-> y = x \/ In y (l1 ++ l2).
Proof. intros. rewrite !in_app_iff. cbn. intuition. Qed.
Lemma INV_step : forall s s', INV s -> step s s' -> INV s'.
Proof.
  intros s s' I H. destruct H.
  - apply (INV_new s t a KObj _ []); auto.
    + apply grows_upd. intros e K. now right.
    + rewrite upd_eq. now left.
  - apply (INV_more s (Ptr t b KObj) (Ptr u b KSelf) _ [EvStart t b u]); auto; [apply grows_app|right; exists t; auto].
  - apply (INV_new s t a KSelf _ [EvStart t (nb s) t]); auto.
    + apply grows_upd. intros e K. now right.
    + rewrite upd_eq. now left.
  - apply (INV_more s p (Ptr t (p_b p) k) _ []); auto. apply grows_app.
  - (* move *)
    assert (EC : forall b, cb b (l1 ++ Ptr t (p_b p) (p_k p) :: l2) = cb b (ptrs s)) by (intros b; rewrite H, !cb_app; reflexivity).
    assert (G : grows (vw s) (upd (vw s) t (vw s t ++ vw s (p_t p)))) by apply grows_app.
    constructor; cbn [nb addr live cnt cvw ptrs dying known vw log].
    + intros b. rewrite EC. apply (i_live _ I).
    + intros b. rewrite EC. apply (i_dead _ I).
    + apply (i_free _ I).
    + apply (i_bnd _ I).
    + apply (i_addr _ I).
    + intros b e Lb C A. rewrite EC in C. destruct (i_acc _ I _ _ Lb C A) as [B|(r & R1 & R2 & R3)]; [auto|right]. rewrite H in R1. apply in_mid in R1. destruct R1 as [->|R1].
      * exists (Ptr t (p_b p) (p_k p)). split; [apply in_mid; auto|]. split; [auto|]. cbn. rewrite upd_eq. apply in_or_app. auto.
      * exists r. split; [apply in_mid; auto|]. split; [auto|]. now apply G.
    + intros t' b e K A. apply G. eapply (i_dy _ I); eauto.
    + intros t' b u K Lb. destruct (i_self _ I _ _ _ K Lb) as [A|A]; [left|auto]. rewrite H in A. apply in_mid in A. apply in_mid. destruct A as [<-|A]; [now cbn in H0|auto].
    + apply (i_well _ I).
  - (* use *)
    apply (INV_view s _ [EvUse (p_t p) (p_b p) (nexte s) (vw s (p_t p))] (S (nexte s)) I).
    + apply grows_upd. intros e K. now right.
    + right. left. exists p, (vw s (p_t p)). split; [auto|]. split; [auto|]. rewrite upd_eq. now left.
  - apply (INV_view s _ [] (nexte s) I); [apply grows_app|auto].
  - apply (INV_view s _ [EvEnd t b] (nexte s) I); [apply grows_refl|]. right. right. exists (Ptr t b KSelf). auto.
  - (* drop *)
    assert (Hp : In p (ptrs s)) by (rewrite H; apply in_mid; auto). pose proof (live_ptr _ _ I Hp) as L.
    assert (EC : forall b, cb b (ptrs s) = (if p_b p =? b then 1 else 0) + cb b (l1 ++ l2)) by (intros b; rewrite H, !cb_app; cbn; lia).
    destruct (i_live _ I _ L) as (Bn & Cn & Dn). unfold release in H1. injection H1 as E1 E2.
    assert (Cp : cb (p_b p) (ptrs s) = S (cb (p_b p) (l1 ++ l2))) by (rewrite EC, Nat.eqb_refl; reflexivity).
    rewrite Cp in Dn. cbn in Dn.
    assert (Ec : c = cb (p_b p) (l1 ++ l2)) by lia. assert (Ez : z = (cb (p_b p) (l1 ++ l2) =? 0)) by (rewrite <- E2, Cn, Cp; cbn; now rewrite Nat.sub_0_r).
    clear E1 E2.
    assert (G : grows (vw s) (upd (vw s) (p_t p) v)) by (apply grows_upd; intros e K; subst v; apply in_or_app; auto).
    assert (AL : forall e, cb (p_b p) (l1 ++ l2) = 0 -> acc (p_b p) e (log s) -> In e v).
    { intros e Z A. subst v. apply in_or_app. destruct (i_acc _ I (p_b p) e L) as [B|(r & R1 & R2 & R3)]; auto; [lia|].
      rewrite H in R1. apply in_mid in R1. destruct R1 as [->|R1]; [auto|]. pose proof (cb_in _ _ _ R1 R2). lia. }
    constructor; cbn [nb addr live cnt cvw ptrs dying known vw log].
    + intros b Lb. destruct (i_live _ I _ Lb) as (A & B & D). split; [auto|]. destruct (Nat.eq_dec b (p_b p)) as [->|N].
      * rewrite upd_eq. split; [auto|]. subst z. destruct (cb (p_b p) (l1 ++ l2) =? 0); cbn; [rewrite Nat.eqb_refl|]; lia.
      * rewrite upd_ne by auto. specialize (EC b). destruct (p_b p =? b) eqn:E; [apply Nat.eqb_eq in E; congruence|]. cbn in EC. rewrite <- EC. split; [auto|].
        destruct z; cbn; [rewrite E|]; auto.
    + intros b Lb. destruct (i_dead _ I _ Lb) as [A B]. specialize (EC b). destruct (p_b p =? b) eqn:E; [apply Nat.eqb_eq in E; congruence|]. split; [lia|]. destruct z; cbn; [rewrite E|]; auto.
    + apply (i_free _ I).
    + apply (i_bnd _ I).
    + apply (i_addr _ I).
    + intros b e Lb C A. destruct (Nat.eq_dec b (p_b p)) as [->|N].
      * rewrite upd_eq. destruct (i_acc _ I (p_b p) e L) as [B|(r & R1 & R2 & R3)]; auto; [lia|left; subst v; apply in_or_app; auto|].
        rewrite H in R1. apply in_mid in R1. destruct R1 as [->|R1]; [left; subst v; apply in_or_app; auto|right]. exists r. split; [auto|]. split; [auto|]. now apply G.
      * rewrite upd_ne by auto. pose proof (EC b) as EC'. destruct (p_b p =? b) eqn:E; [apply Nat.eqb_eq in E; congruence|]. cbn in EC'.
        destruct (i_acc _ I b e Lb) as [B|(r & R1 & R2 & R3)]; auto; [lia|right].
        rewrite H in R1. apply in_mid in R1. destruct R1 as [->|R1]; [congruence|]. exists r. split; [auto|]. split; [auto|]. now apply G.
    + intros t b e K A. assert (K' : In (t, b) (dying s) \/ (t, b) = (p_t p, p_b p) /\ z = true) by (destruct z; [destruct K as [K|K]; auto|auto]).
      destruct K' as [K'|[K' Zt]]; [apply G; eapply (i_dy _ I); eauto|]. injection K' as -> ->. rewrite upd_eq. apply AL; auto. apply Nat.eqb_eq. congruence.
    + intros t b u K Lb. destruct (i_self _ I _ _ _ K Lb) as [A|A]; [|auto]. rewrite H in A. apply in_mid in A. destruct A as [<-|A]; [right; now apply H0|auto].
    + apply (i_well _ I).
  - (* delete *)
    assert (Hd : In (t, b) (dying s)) by (rewrite H; apply in_mid; auto). destruct (live_dying _ _ _ I Hd) as [L Z].
    assert (ED : forall c, db c (dying s) = (if b =? c then 1 else 0) + db c (l1 ++ l2)) by (intros c; rewrite H, !db_app; cbn; lia).
    destruct (i_live _ I _ L) as (Bn & Cn & Dn). rewrite Z in Dn. cbn in Dn.
    assert (AX : forall c e, acc c e (EvFree t b (vw s t) :: log s) -> acc c e (log s)).
    { intros c e A. destruct (acc_cons _ _ _ _ A) as [A'|[(t' & sw & A')|(t' & A')]]; [auto|discriminate..]. }
    constructor; cbn [nb addr live cnt cvw ptrs dying known vw log].
    + intros c Lc. destruct (Nat.eq_dec c b) as [->|N]; [rewrite upd_eq in Lc; discriminate|]. rewrite upd_ne in Lc by auto.
      destruct (i_live _ I _ Lc) as (A & B & D). rewrite ED in D. destruct (b =? c) eqn:E; [apply Nat.eqb_eq in E; congruence|]. auto.
    + intros c Lc. destruct (Nat.eq_dec c b) as [->|N].
      * split; [auto|]. rewrite ED, Nat.eqb_refl in Dn. lia.
      * rewrite upd_ne in Lc by auto. destruct (i_dead _ I _ Lc) as [A B]. rewrite ED in B. split; [auto|lia].
    + intros c. destruct (Nat.eq_dec c b) as [->|N].
      * rewrite upd_eq. split; [auto|]. intros _. exists t, (vw s t). now left.
      * rewrite upd_ne by auto. rewrite <- (i_free _ I c). apply freed_cons. intros t' sw E. injection E as _ E _. congruence.
    + intros y [<-|Hy]; [cbn; auto|]. now apply (i_bnd _ I).
    + intros c c' Lc Lc' E. destruct (Nat.eq_dec c b) as [->|N]; [rewrite upd_eq in Lc; discriminate|]. destruct (Nat.eq_dec c' b) as [->|N']; [rewrite upd_eq in Lc'; discriminate|].
      rewrite !upd_ne in * by auto. now apply (i_addr _ I).
    + intros c e Lc C A. destruct (Nat.eq_dec c b) as [->|N]; [rewrite upd_eq in Lc; discriminate|]. rewrite upd_ne in Lc by auto. apply (i_acc _ I); auto.
    + intros t' c e K A. eapply (i_dy _ I); [rewrite H; apply in_mid; eauto|]. now apply AX.
    + intros t' c u [K|K] Lc; [discriminate|]. destruct (Nat.eq_dec c b) as [->|N]; [rewrite upd_eq in Lc; discriminate|]. rewrite upd_ne in Lc by auto.
      destruct (i_self _ I _ _ _ K Lc) as [A|A]; [auto|right; now right].
    + split; [|apply (i_well _ I)]. split; [now apply not_freed|]. split.
      * intros e A. exact (i_dy _ I _ _ _ Hd A).
      * intros t' u K. destruct (i_self _ I _ _ _ K L) as [A|A]; [|auto]. pose proof (cb_in b _ _ A eq_refl). lia.
Qed.
Theorem INV_reach : forall s, reach s -> INV s.
Proof. intros s H. induction H; [apply INV_init|eapply INV_step; eauto]. Qed.
Theorem never_leaks : forall s, reach s -> no_leak s.
Proof.
  intros s R t b e H. pose proof (INV_reach _ R) as I. pose proof (i_bnd _ I _ H) as B. cbn in B. destruct (live s b) eqn:L.
  - right. destruct (i_live _ I _ L) as (_ & _ & D). destruct (cb b (ptrs s)) eqn:C; cbn in D; [right; apply db_ex; lia|left; apply cb_ex; lia].
  - left. apply (i_free _ I). auto.
Qed.
Theorem distinct : forall s, reach s -> ids_distinct s.
Proof.
  intros s R p q Hp Hq. pose proof (INV_reach _ R) as I. split; [|congruence]. apply (i_addr _ I); now apply live_ptr.
Qed.
