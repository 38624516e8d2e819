(** * Who executes the function (proofs): the part of the invariant that the three implementations share *)
From Coq Require Import List Arith Lia Bool.
Import ListNotations.
From Verif Require Import OM_Model OM_Spec.

(** [f] is a call that has taken the flag [g]. *)
Definition owns (g : nat) (f : frame) : bool :=
  match f with
  | FBody h _ | FDone h _ _ | FStore h _ | FUnl h NRun => h =? g
  | _ => false
  end.
Definition nown (g : nat) (fs : list frame) : nat := length (filter (owns g) fs).

Definition frame_ok (val : nat -> nat) (h : list ev) (f : frame) : Prop :=
  match f with
  | FBody g _ | FUnl g NRun | FDone g _ false | FStore g false => ~ completed g h
  | FDone g _ true | FStore g true => completed g h
  | FUnl g NRet => 2 <= val g
  | _ => True
  end.

Definition is_owner (ow : nat -> option nat) (t g : nat) : nat :=
  match ow g with Some u => if u =? t then 1 else 0 | None => 0 end.

Record FI (val : nat -> nat) (ow : nat -> option nat) (stk : nat -> list frame) (h : list ev) : Prop := {
  f_tail : forall t f r, stk t = f :: r -> forall x, In x r -> exists g e, x = FBody g e;
  f_own : forall t g, nown g (stk t) = is_owner ow t g;
  f_none : forall g, ow g = None -> val g <> 1;
  f_some : forall g t, ow g = Some t -> val g = 1;
  f_fin : forall g, 2 <= val g -> completed g h;
  f_zero : forall g, val g = 0 -> ~ completed g h;
  f_fr : forall t f, In f (stk t) -> frame_ok val h f;
  f_run : forall t g e saw, In (EvStart t g e saw) h ->
            (exists ok, In (EvEnd t g e ok) h) \/ In (FBody g e) (stk t) }.

Lemma upd_eq : forall A (f : nat -> A) n x, upd f n x n = x.
Proof. intros. unfold upd. now rewrite Nat.eqb_refl. Qed.
Lemma upd_ne : forall A (f : nat -> A) n m x, m <> n -> upd f n x m = f m.
Proof. intros A f n m x H. unfold upd. apply Nat.eqb_neq in H. now rewrite H. Qed.

Ltac upd_cases t u :=
  destruct (Nat.eq_dec t u) as [?|?]; [subst; rewrite ?upd_eq in *|rewrite ?upd_ne in * by congruence].

(** An event that does not change what [FI] looks at. *)
Definition neutral (h h' : list ev) : Prop :=
  h' = h \/ (exists t g saw, h' = EvRet t g saw :: h) \/ (exists t g, h' = EvThrow t g :: h).

Lemma neutral_in : forall h h' x, neutral h h' -> In x h -> In x h'.
Proof. intros h h' x [->|[(t & g & saw & ->)|(t & g & ->)]] H; cbn; auto. Qed.
Lemma neutral_end : forall h h' t g e ok, neutral h h' -> In (EvEnd t g e ok) h' -> In (EvEnd t g e ok) h.
Proof. intros h h' t g e ok [->|[(u & k & saw & ->)|(u & k & ->)]] H; auto; destruct H; try discriminate; auto. Qed.
Lemma neutral_start : forall h h' t g e w, neutral h h' -> In (EvStart t g e w) h' -> In (EvStart t g e w) h.
Proof. intros h h' t g e ok [->|[(u & k & saw & ->)|(u & k & ->)]] H; auto; destruct H; try discriminate; auto. Qed.
Lemma neutral_comp : forall h h' g, neutral h h' -> (completed g h' <-> completed g h).
Proof.
  intros h h' g N. split; intros (t & e & H); exists t, e; [eapply neutral_end|eapply neutral_in]; eauto.
Qed.
Lemma neutral_frame : forall val h h' f, neutral h h' -> frame_ok val h f -> frame_ok val h' f.
Proof.
  intros val h h' f N. destruct f as [g|g|g|g|g|g e|g e [|]|g [|]|g [| |]]; cbn; auto; rewrite (neutral_comp _ _ _ N); auto.
Qed.

Lemma nown_app : forall g a b, nown g (a ++ b) = nown g a + nown g b.
Proof. intros. unfold nown. now rewrite filter_app, app_length. Qed.
Lemma nown_cons : forall g f r, nown g (f :: r) = (if owns g f then 1 else 0) + nown g r.
Proof. intros. unfold nown. cbn. destruct (owns g f); cbn; lia. Qed.

Section FI_steps.
  Variables (val : nat -> nat) (ow : nat -> option nat) (stk0 : nat -> list frame) (h : list ev).
  Hypothesis I : FI val ow stk0 h.

  (** The calls [a] in front of [r] are replaced by [b]; nobody takes or gives up a flag. *)
  Lemma FI_keep : forall t a b r h', stk0 t = a ++ r -> neutral h h' ->
    (forall f q, b ++ r = f :: q -> forall x, In x q -> exists g e, x = FBody g e) ->
    (forall g, nown g b = nown g a) ->
    (forall f, In f b -> frame_ok val h f) ->
    (forall g e, In (FBody g e) a -> In (FBody g e) b) ->
    FI val ow (upd stk0 t (b ++ r)) h'.
  Proof.
    intros t a b r h' E N T O F B. constructor; intros.
    - upd_cases t0 t; [eapply T; eauto|eapply (f_tail _ _ _ _ I); eauto].
    - upd_cases t0 t; [|apply I].
      rewrite nown_app, O, <- nown_app, <- E. apply I.
    - now apply (f_none _ _ _ _ I).
    - now apply (f_some _ _ _ _ I _ t0).
    - apply (neutral_comp _ _ _ N). now apply (f_fin _ _ _ _ I).
    - rewrite (neutral_comp _ _ _ N). now apply (f_zero _ _ _ _ I).
    - apply (neutral_frame _ _ _ _ N). upd_cases t0 t; [|eapply (f_fr _ _ _ _ I); eauto].
      rewrite in_app_iff in H. destruct H as [H|H]; [now apply F|].
      apply (f_fr _ _ _ _ I t). rewrite E. apply in_or_app. auto.
    - destruct (f_run _ _ _ _ I _ _ _ _ (neutral_start _ _ _ _ _ _ N H)) as [(ok & K)|K].
      + left. exists ok. eapply neutral_in; eauto.
      + right. upd_cases t0 t; auto. rewrite E in K. rewrite in_app_iff in *. destruct K; auto.
  Qed.

  (** A call takes a flag. *)
  Lemma FI_take : forall t g f r, stk0 t = f :: r -> (forall g', owns g' f = false) -> val g = 0 ->
    FI (upd val g 1) (upd ow g (Some t)) (upd stk0 t (FUnl g NRun :: r)) h.
  Proof.
    intros t g f r E O Z.
    assert (ON : ow g = None).
    { destruct (ow g) as [u|] eqn:W; auto. rewrite (f_some _ _ _ _ I _ _ W) in Z. discriminate. }
    assert (NF : ~ (exists e, f = FBody g e)) by (intros (e & ->); specialize (O g); cbn in O; rewrite Nat.eqb_refl in O; discriminate).
    constructor; intros.
    - upd_cases t0 t; [|eapply (f_tail _ _ _ _ I); eauto].
      injection H as <- <-. eapply (f_tail _ _ _ _ I); eauto.
    - pose proof (f_own _ _ _ _ I t0 g0) as P. upd_cases t0 t.
      + rewrite E, nown_cons, O in P. rewrite nown_cons. cbn in *. rewrite P. unfold is_owner, upd.
        rewrite (Nat.eqb_sym g0 g). destruct (g =? g0) eqn:G; [|lia]. apply Nat.eqb_eq in G. subst.
        rewrite ON, Nat.eqb_refl. lia.
      + rewrite P. unfold is_owner, upd. destruct (g0 =? g) eqn:G; auto. apply Nat.eqb_eq in G. subst. rewrite ON.
        destruct (t =? t0) eqn:K; auto. apply Nat.eqb_eq in K. congruence.
    - upd_cases g0 g; [congruence|]. now apply (f_none _ _ _ _ I).
    - upd_cases g0 g; auto. now apply (f_some _ _ _ _ I _ t0).
    - upd_cases g0 g; [lia|]. now apply (f_fin _ _ _ _ I).
    - upd_cases g0 g; [lia|]. now apply (f_zero _ _ _ _ I).
    - assert (K : f0 = FUnl g NRun \/ exists u, In f0 (stk0 u)).
      { upd_cases t0 t; [|eauto]. destruct H as [<-|H]; auto. right. exists t. rewrite E. now right. }
      destruct K as [->|(u & K)].
      + cbn. now apply (f_zero _ _ _ _ I).
      + apply (f_fr _ _ _ _ I) in K.
        destruct f0 as [x|x|x|x|x|x y|x y [|]|x [|]|x [| |]]; cbn in *; auto.
        upd_cases x g; auto. lia.
    - destruct (f_run _ _ _ _ I _ _ _ _ H) as [K|K]; auto. right.
      upd_cases t0 t; auto. rewrite E in K. destruct K as [K|K]; [|now right]. exfalso.
      specialize (O g0). rewrite K in O. cbn in O. rewrite Nat.eqb_refl in O. discriminate.
  Qed.

  (** The execution begins. *)
  Lemma FI_start : forall t g r e saw, stk0 t = FUnl g NRun :: r ->
    FI val ow (upd stk0 t (FBody g e :: r)) (EvStart t g e saw :: h).
  Proof.
    intros t g r e saw E.
    assert (CE : forall k, completed k (EvStart t g e saw :: h) <-> completed k h).
    { intros k. split; intros (u & x & H); exists u, x; [destruct H; [discriminate|auto]|now right]. }
    constructor; intros.
    - upd_cases t0 t; [|eapply (f_tail _ _ _ _ I); eauto].
      injection H as <- <-. eapply (f_tail _ _ _ _ I); eauto.
    - pose proof (f_own _ _ _ _ I t0 g0) as P. upd_cases t0 t; auto. rewrite E, nown_cons in P. rewrite nown_cons. exact P.
    - now apply (f_none _ _ _ _ I).
    - now apply (f_some _ _ _ _ I _ t0).
    - rewrite CE. now apply (f_fin _ _ _ _ I).
    - rewrite CE. now apply (f_zero _ _ _ _ I).
    - assert (K : f = FBody g e \/ exists u, In f (stk0 u)).
      { upd_cases t0 t; [|eauto]. destruct H as [<-|H]; auto. right. exists t. rewrite E. now right. }
      destruct K as [->|(u & K)].
      + cbn. rewrite CE. apply (f_fr _ _ _ _ I t (FUnl g NRun)). rewrite E. now left.
      + apply (f_fr _ _ _ _ I) in K.
        destruct f as [x|x|x|x|x|x y|x y [|]|x [|]|x [| |]]; cbn in *; rewrite ?CE; auto.
    - destruct H as [H|H].
      + injection H as <- <- <- <-. right. rewrite upd_eq. now left.
      + destruct (f_run _ _ _ _ I _ _ _ _ H) as [(ok & K)|K]; [left; exists ok; now right|].
        right. upd_cases t0 t; auto. rewrite E in K. destruct K as [K|K]; [discriminate|now right].
  Qed.

  Lemma own_one : forall t g f r, stk0 t = f :: r -> owns g f = true ->
    ow g = Some t /\ (forall x, In x r -> owns g x = false) /\
    (forall u x, u <> t -> In x (stk0 u) -> owns g x = false).
  Proof.
    intros t g f r E O. pose proof (f_own _ _ _ _ I t g) as P. rewrite E, nown_cons, O in P. unfold is_owner in P.
    destruct (ow g) as [u|] eqn:W; [|lia]. destruct (u =? t) eqn:K; [|lia]. apply Nat.eqb_eq in K. subst u.
    assert (Z : forall l, nown g l = 0 -> forall x, In x l -> owns g x = false).
    { intros l. induction l as [|y l IH]; intros Z x []; rewrite nown_cons in Z.
      - subst. destruct (owns g x); [lia|auto].
      - apply IH; auto. lia. }
    repeat split; auto.
    - apply Z. lia.
    - intros u x N. apply Z. rewrite (f_own _ _ _ _ I u g). unfold is_owner. rewrite W.
      apply Nat.eqb_neq in N. now rewrite Nat.eqb_sym, N.
  Qed.

  (** The execution ends. *)
  Lemma FI_end : forall t g r e ok, stk0 t = FBody g e :: r ->
    FI val ow (upd stk0 t (FDone g e ok :: r)) (EvEnd t g e ok :: h).
  Proof.
    intros t g r e ok E.
    destruct (own_one t g (FBody g e) r E (Nat.eqb_refl g)) as (W & U1 & U2).
    assert (V : val g = 1) by now apply (f_some _ _ _ _ I _ t).
    assert (NC : ~ completed g h) by (apply (f_fr _ _ _ _ I t (FBody g e)); rewrite E; now left).
    assert (CE : forall k, k <> g -> completed k (EvEnd t g e ok :: h) <-> completed k h).
    { intros k N. split; intros (u & x & H); exists u, x; [destruct H; [congruence|auto]|now right]. }
    assert (CG : if ok then completed g (EvEnd t g e ok :: h) else ~ completed g (EvEnd t g e ok :: h)).
    { destruct ok; [exists t, e; now left|]. intros (u & x & [H|H]); [discriminate|]. apply NC. now exists u, x. }
    constructor; intros.
    - upd_cases t0 t; [|eapply (f_tail _ _ _ _ I); eauto].
      injection H as <- <-. eapply (f_tail _ _ _ _ I); eauto.
    - pose proof (f_own _ _ _ _ I t0 g0) as P. upd_cases t0 t; auto. rewrite E, nown_cons in P. rewrite nown_cons. exact P.
    - now apply (f_none _ _ _ _ I).
    - now apply (f_some _ _ _ _ I _ t0).
    - assert (N : g0 <> g) by (intros ->; lia). rewrite CE by auto. now apply (f_fin _ _ _ _ I).
    - assert (N : g0 <> g) by (intros ->; lia). rewrite CE by auto. now apply (f_zero _ _ _ _ I).
    - assert (K : f = FDone g e ok \/ (exists u, In f (stk0 u)) /\ owns g f = false).
      { upd_cases t0 t; [|eauto]. destruct H as [<-|H]; auto. right. split; auto. exists t. rewrite E. now right. }
      destruct K as [->|((u & K) & OF)].
      + cbn. destruct ok; exact CG.
      + apply (f_fr _ _ _ _ I) in K.
        destruct f as [x|x|x|x|x|x y|x y [|]|x [|]|x [| |]]; cbn in *; auto; rewrite CE; auto; now apply Nat.eqb_neq.
    - destruct H as [H|H]; [discriminate|].
      destruct (f_run _ _ _ _ I _ _ _ _ H) as [(ok' & K)|K]; [left; exists ok'; now right|].
      upd_cases t0 t; auto. rewrite E in K. destruct K as [K|K].
      + injection K as <- <-. left. exists ok. now left.
      + right. now right.
  Qed.

  (** The flag is given up: the function is complete ([x >= 2]) or has failed ([x = 0]). *)
  Lemma FI_store : forall t g f r b x h', stk0 t = f :: r -> neutral h h' ->
    owns g f = true -> (forall g' e, f <> FBody g' e) ->
    (x = 0 /\ ~ completed g h \/ 2 <= x /\ completed g h) ->
    (forall f' q, b ++ r = f' :: q -> forall y, In y q -> exists g' e, y = FBody g' e) ->
    (forall g', nown g' b = 0) ->
    (forall f', In f' b -> frame_ok (upd val g x) h f') ->
    FI (upd val g x) (upd ow g None) (upd stk0 t (b ++ r)) h'.
  Proof.
    intros t g f r b x h' E N O NB X T OB FB.
    destruct (own_one t g f r E O) as (W & U1 & U2).
    assert (V : val g = 1) by now apply (f_some _ _ _ _ I _ t).
    assert (OF : forall g', g' <> g -> owns g' f = false).
    { intros g' D. destruct f as [y|y|y|y|y|y z|y z [|]|y [|]|y [| |]]; cbn in *; auto;
        apply Nat.eqb_eq in O; subst; apply Nat.eqb_neq; auto. }
    constructor; intros.
    - upd_cases t0 t; [eapply T; eauto|eapply (f_tail _ _ _ _ I); eauto].
    - pose proof (f_own _ _ _ _ I t0 g0) as P. upd_cases t0 t.
      + rewrite nown_app, OB. rewrite E, nown_cons in P. unfold is_owner in *. upd_cases g0 g.
        * rewrite O, W, Nat.eqb_refl in P. lia.
        * rewrite (OF g0) in P by auto. lia.
      + rewrite P. unfold is_owner. upd_cases g0 g; auto. rewrite W.
        destruct (t =? t0) eqn:K; auto. apply Nat.eqb_eq in K. congruence.
    - upd_cases g0 g; [lia|]. now apply (f_none _ _ _ _ I).
    - upd_cases g0 g; [discriminate|]. now apply (f_some _ _ _ _ I _ t0).
    - apply (neutral_comp _ _ _ N). upd_cases g0 g; [destruct X as [(-> & _)|(_ & C)]; [lia|auto]|]. now apply (f_fin _ _ _ _ I).
    - rewrite (neutral_comp _ _ _ N). upd_cases g0 g; [destruct X as [(_ & C)|(X & _)]; [auto|lia]|]. now apply (f_zero _ _ _ _ I).
    - apply (neutral_frame _ _ _ _ N).
      assert (K : In f0 b \/ exists u, In f0 (stk0 u)).
      { upd_cases t0 t; [|eauto]. rewrite in_app_iff in H. destruct H as [H|H]; auto. right. exists t. rewrite E. now right. }
      destruct K as [K|(u & K)]; [now apply FB|]. apply (f_fr _ _ _ _ I) in K.
      destruct f0 as [y|y|y|y|y|y z|y z [|]|y [|]|y [| |]]; cbn in *; auto.
      upd_cases y g; auto. lia.
    - destruct (f_run _ _ _ _ I _ _ _ _ (neutral_start _ _ _ _ _ _ N H)) as [(ok & K)|K].
      + left. exists ok. eapply neutral_in; eauto.
      + right. upd_cases t0 t; auto. rewrite E in K. destruct K as [K|K]; [now apply NB in K|].
        apply in_or_app. auto.
  Qed.

  (** Frames of a completed flag. *)
  Lemma fin_not_owned : forall g, 2 <= val g -> ow g = None.
  Proof. intros g H. destruct (ow g) as [u|] eqn:W; auto. apply (f_some _ _ _ _ I) in W. lia. Qed.
End FI_steps.

Lemma FI_ext : forall val val' ow stk0 h, (forall g, val g = val' g) -> FI val ow stk0 h -> FI val' ow stk0 h.
Proof.
  intros val val' ow stk0 h E I. constructor; intros; rewrite <- ?E in *.
  - eapply (f_tail _ _ _ _ I); eauto.
  - apply I.
  - now apply (f_none _ _ _ _ I).
  - now apply (f_some _ _ _ _ I _ t).
  - now apply (f_fin _ _ _ _ I).
  - now apply (f_zero _ _ _ _ I).
  - apply (f_fr _ _ _ _ I) in H. destruct f as [y|y|y|y|y|y z|y z [|]|y [|]|y [| |]]; cbn in *; auto. now rewrite <- E.
  - now apply (f_run _ _ _ _ I _ _ _ saw).
Qed.

(** ** The three promises as conditions on one more event *)
Lemma returns_cons : forall h x, returns_see h ->
  (forall t g saw, x = EvRet t g saw -> completed g h /\ sees_all g saw h) -> returns_see (x :: h).
Proof.
  intros h x R C later t g saw before E. destruct later as [|y l]; injection E as -> ->; [now apply (C t)|now apply (R l t)].
Qed.
Lemma starts_cons : forall h x, starts_see h ->
  (forall t g e saw, x = EvStart t g e saw -> ~ completed g h /\ sees_all g saw h /\
    (forall t' e' saw', In (EvStart t' g e' saw') h -> exists ok, In (EvEnd t' g e' ok) h)) -> starts_see (x :: h).
Proof.
  intros h x R C later t g e saw before E. destruct later as [|y l]; injection E as -> ->; [now apply (C t g e)|now apply (R l t g e)].
Qed.
Lemma once_cons : forall h x, completes_once h ->
  (forall t g e, x = EvEnd t g e true -> ~ completed g h) -> completes_once (x :: h).
Proof.
  intros h x R C later t g e before E. destruct later as [|y l]; injection E as -> ->; [now apply (C t g e)|now apply (R l t g e)].
Qed.
Definition promises (h : list ev) : Prop := returns_see h /\ starts_see h /\ completes_once h.

Lemma promises_ret : forall h t g saw, promises h -> completed g h -> sees_all g saw h -> promises (EvRet t g saw :: h).
Proof.
  intros h t g saw (A & B & C) K S. split; [apply returns_cons|split; [apply starts_cons|apply once_cons]]; auto; try discriminate.
  intros t0 g0 s0 E. injection E as <- <- <-. auto.
Qed.
Lemma promises_throw : forall h t g, promises h -> promises (EvThrow t g :: h).
Proof.
  intros h t g (A & B & C). split; [apply returns_cons|split; [apply starts_cons|apply once_cons]]; auto; discriminate.
Qed.
Lemma promises_end : forall val ow stk0 h t g e ok r, FI val ow stk0 h -> stk0 t = FBody g e :: r ->
  promises h -> promises (EvEnd t g e ok :: h).
Proof.
  intros val ow stk0 h t g e ok r I E (A & B & C).
  split; [apply returns_cons|split; [apply starts_cons|apply once_cons]]; auto; try discriminate.
  intros t0 g0 e0 X. injection X as <- <- <- ->. apply (f_fr _ _ _ _ I t (FBody g e)). rewrite E. now left.
Qed.
Lemma promises_start : forall val ow stk0 h t g e saw r, FI val ow stk0 h -> stk0 t = FUnl g NRun :: r ->
  sees_all g saw h -> promises h -> promises (EvStart t g e saw :: h).
Proof.
  intros val ow stk0 h t g e saw r I E S (A & B & C).
  split; [apply returns_cons|split; [apply starts_cons|apply once_cons]]; auto; try discriminate.
  intros t0 g0 e0 s0 X. injection X as <- <- <- <-. repeat split; auto.
  - apply (f_fr _ _ _ _ I t (FUnl g NRun)). rewrite E. now left.
  - intros t' e' saw' H. destruct (f_run _ _ _ _ I _ _ _ _ H) as [K|K]; auto. exfalso.
    destruct (own_one _ _ _ _ I t g _ _ E (Nat.eqb_refl g)) as (_ & U1 & U2).
    destruct (Nat.eq_dec t' t) as [->|D].
    + rewrite E in K. destruct K as [K|K]; [discriminate|]. apply U1 in K. cbn in K. rewrite Nat.eqb_refl in K. discriminate.
    + apply (U2 _ _ D) in K. cbn in K. rewrite Nat.eqb_refl in K. discriminate.
Qed.
