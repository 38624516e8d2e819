(** * Invariants of externally_locked *)
From Verif Require Import EL_Model EL_Spec.
Set Implicit Arguments.

Lemma nth_upd {A} (l : list A) t x t' : nth_error (upd l t x) t' = if t' =? t then (if t <? length l then Some x else None) else nth_error l t'.
Proof.
  revert t t'. induction l as [|a l IH]; intros [|t] [|t']; cbn; auto; try (destruct (t' =? t); reflexivity).
  rewrite IH. destruct (t' =? t); reflexivity.
Qed.
Lemma len_upd {A} (l : list A) t x : length (upd l t x) = length l.
Proof. revert t. induction l as [|a l IH]; intros [|t]; cbn; auto. Qed.
Lemma nth_some_lt {A} (l : list A) t x : nth_error l t = Some x -> t < length l.
Proof. intros E. apply nth_error_Some. congruence. Qed.
Lemma nth_snoc {A} (l : list A) x t : nth_error (l ++ [x]) t = if t =? length l then Some x else nth_error l t.
Proof.
  destruct (t =? length l) eqn:E.
  - apply Nat.eqb_eq in E. subst. rewrite nth_error_app2 by lia. rewrite Nat.sub_diag. reflexivity.
  - apply Nat.eqb_neq in E. destruct (Nat.lt_ge_cases t (length l)) as [L|L]; [apply nth_error_app1, L|].
    transitivity (@None A); [|symmetry]; apply nth_error_None; rewrite ?app_length; cbn; lia.
Qed.

(** ** counting guards *)
Definition b2n (b : bool) : nat := if b then 1 else 0.
Fixpoint cnt {A} (f : A -> bool) (l : list A) : nat := match l with [] => 0 | x :: l' => b2n (f x) + cnt f l' end.
Lemma cnt_app {A} (f : A -> bool) a b : cnt f (a ++ b) = cnt f a + cnt f b.
Proof. induction a as [|x a IH]; cbn; [reflexivity|rewrite IH; lia]. Qed.
Lemma cnt_upd {A} (f : A -> bool) l g x y : nth_error l g = Some x -> cnt f (upd l g y) + b2n (f x) = cnt f l + b2n (f y).
Proof.
  revert g. induction l as [|a l IH]; intros [|g] E; cbn in *; try discriminate.
  - injection E as ->. lia.
  - specialize (IH _ E). lia.
Qed.
Lemma cnt_pos {A} (f : A -> bool) l g x : nth_error l g = Some x -> f x = true -> cnt f l > 0.
Proof. revert g. induction l as [|a l IH]; intros [|g] E F; cbn in *; try discriminate; [injection E as ->; rewrite F; cbn; lia|]. specialize (IH _ E F). lia. Qed.

Definition onm (m : nat) (sh : bool) (x : guard) : bool :=
  glive x && Bool.eqb (gs x) sh && match gm x with Some k => k =? m | None => false end.
Lemma onm_spec m sh x : onm m sh x = true <-> glive x = true /\ gs x = sh /\ gm x = Some m.
Proof.
  unfold onm. rewrite !andb_true_iff, Bool.eqb_true_iff. destruct (gm x) as [k|]; [rewrite Nat.eqb_eq|]; intuition congruence.
Qed.

(** ** uses in progress *)
Definition is_use (g o : nat) (a : nat * nat) : bool := (fst a =? g) && (snd a =? o).
Lemma is_use_spec g o a : is_use g o a = true <-> a = (g, o).
Proof. unfold is_use. destruct a as (x, y). cbn. rewrite andb_true_iff, !Nat.eqb_eq. split; [intros (-> & ->); reflexivity|intros E; injection E; auto]. Qed.
Lemma in_use_cnt s g o : in_use s g o = true <-> cnt (is_use g o) (acc s) > 0.
Proof.
  unfold in_use. change (fun a => (fst a =? g) && (snd a =? o)) with (is_use g o).
  induction (acc s) as [|a l IH]; cbn; [split; [discriminate|lia]|]. destruct (is_use g o a); cbn; [split; [lia|auto]|exact IH].
Qed.
Lemma cnt_remove g o g' o' l : cnt (is_use g' o') (remove1 (g, o) l) = cnt (is_use g' o') l - (if (g =? g') && (o =? o') then 1 else 0).
Proof.
  induction l as [|(a, b) l IH]; cbn; [destruct ((g =? g') && (o =? o')); reflexivity|]. unfold is_use at 2. cbn [fst snd].
  destruct ((g =? a) && (o =? b)) eqn:E.
  - apply andb_true_iff in E. rewrite !Nat.eqb_eq in E. destruct E as (<- & <-). destruct ((g =? g') && (o =? o')); cbn; lia.
  - cbn. rewrite IH. unfold is_use at 1. cbn [fst snd]. destruct ((g =? g') && (o =? o')) eqn:F; [|lia].
    destruct ((a =? g') && (b =? o')) eqn:H; cbn; [|lia].
    apply andb_true_iff in F, H. rewrite !Nat.eqb_eq in F, H. destruct F as (<- & <-), H as (-> & ->). rewrite !Nat.eqb_refl in E. discriminate.
Qed.
Lemma cnt_in g o l : cnt (is_use g o) l > 0 -> In (g, o) l.
Proof.
  induction l as [|a l IH]; cbn; [lia|]. destruct (is_use g o a) eqn:E; [intros _; left; apply is_use_spec, E|]. cbn. intros H. right. exact (IH H).
Qed.
Lemma in_remove g o a l : In a (remove1 (g, o) l) -> In a l.
Proof.
  induction l as [|b l IH]; cbn; [tauto|]. destruct ((g =? fst b) && (o =? snd b)); [intros H; right; exact H|]. intros [->|H]; [left; reflexivity|right; exact (IH H)].
Qed.
Lemma busy_false s g o : busy s g = false -> ~ In (g, o) (acc s).
Proof.
  unfold busy. intros B I. assert (X : existsb (fun a => fst a =? g) (acc s) = true) by (apply existsb_exists; exists (g, o); split; [exact I|apply Nat.eqb_refl]). congruence.
Qed.

Section Inv.
  Variable objs : list obj.
  Variable chk care : bool.

  Definition m_ok (l : list guard) (m : nat) (x : mst) : Prop :=
    match x with
    | MFree => cnt (onm m false) l = 0 /\ cnt (onm m true) l = 0
    | MEx t n => n = cnt (onm m false) l /\ n > 0 /\ cnt (onm m true) l = 0 /\ forall g y, nth_error l g = Some y -> onm m false y = true -> gt y = t
    | MSh n => n = cnt (onm m true) l /\ n > 0 /\ cnt (onm m false) l = 0
    end.

  Definition good (e : event) (h : list event) : Prop :=
    match e with
    | EBegin t g o =>
        exists b m sh, nth_error objs o = Some b /\ origin g h = Some (t, m, sh) /\ (chk || care = true -> m = om b) /\
          forall h2 h1 g' t', h = h2 ++ EHeld g' t' m false :: h1 -> destroyed g' h2 \/ t' = t
    | EThrow t g o => chk = true /\ exists b m sh, nth_error objs o = Some b /\ origin g h = Some (t, m, sh) /\ m <> om b
    | _ => True
    end.
  Fixpoint goods (h : list event) : Prop := match h with [] => True | e :: h' => good e h' /\ goods h' end.

  Record inv (s : sys) : Prop := MkInv {
    i_ub : ub s = false;
    i_m : forall m x, nth_error (ms s) m = Some x -> m_ok (gs_ s) m x;
    i_g : forall g x m, nth_error (gs_ s) g = Some x -> gm x = Some m -> m < length (ms s);
    i_acc : forall g o, In (g, o) (acc s) -> exists x m b, nth_error (gs_ s) g = Some x /\ glive x = true /\ gm x = Some m /\ nth_error objs o = Some b /\ (chk || care = true -> m = om b);
    i_uses : forall t g o, uses t g o (hist s) = match nth_error (gs_ s) g with Some x => if gt x =? t then cnt (is_use g o) (acc s) else 0 | None => 0 end;
    i_org : forall g, match nth_error (gs_ s) g with
                      | Some x => exists m, origin g (hist s) = Some (gt x, m, gs x) /\ forall k, gm x = Some k -> k = m
                      | None => origin g (hist s) = None end;
    i_hold : forall h2 h1 g t m, hist s = h2 ++ EHeld g t m false :: h1 ->
               destroyed g h2 \/ exists x, nth_error (gs_ s) (current g h2) = Some x /\ gt x = t /\ onm m false x = true;
    i_good : goods (hist s) }.

  Lemma inv0 n : inv (sys0 n).
  Proof.
    constructor; cbn; auto.
    - intros m x E. apply nth_error_In, repeat_spec in E. subst. cbn. auto.
    - intros [|g] x m E; discriminate.
    - intros g o [].
    - intros t [|g] o; reflexivity.
    - intros [|g]; reflexivity.
    - intros [|e h2] h1 g t m E; discriminate.
  Qed.

  (** a guard exclusively on m excludes *)
  Lemma m_ex s m g x y g' : inv s -> nth_error (gs_ s) g = Some x -> onm m false x = true -> nth_error (gs_ s) g' = Some y -> glive y = true -> gm y = Some m ->
    gt y = gt x /\ gs y = false.
  Proof.
    intros I E O E' L M. apply onm_spec in O as O1. destruct O1 as (_ & _ & M1).
    pose proof (i_g I _ E M1) as Lt. destruct (nth_error (ms s) m) as [z|] eqn:Z; [|apply nth_error_None in Z; lia].
    pose proof (i_m I _ Z) as K. pose proof (cnt_pos (onm m false) _ _ E O) as P.
    destruct z as [|t n|n]; cbn in K; [lia| |lia].
    destruct K as (_ & _ & S & K). destruct (gs y) eqn:Q.
    - assert (onm m true y = true) as Y by (apply onm_spec; auto). pose proof (cnt_pos (onm m true) _ _ E' Y). lia.
    - assert (onm m false y = true) as Y by (apply onm_spec; auto). rewrite (K _ _ E O), (K _ _ E' Y). auto.
  Qed.

  Lemma destroyed_cons g e h : destroyed g h -> destroyed g (e :: h).
  Proof. intros (a & b & ->). exists (e :: a), b. reflexivity. Qed.

  (** steps that leave the guards alone *)
  Lemma inv_event s ac e : inv s ->
    (forall g, origin g (e :: hist s) = origin g (hist s)) -> (forall g h, current g (e :: h) = current g h) -> (forall g t m sh, e <> EHeld g t m sh) ->
    (forall g o, In (g, o) ac -> In (g, o) (acc s) \/ exists x m b, nth_error (gs_ s) g = Some x /\ glive x = true /\ gm x = Some m /\ nth_error objs o = Some b /\ (chk || care = true -> m = om b)) ->
    (forall t g o, uses t g o (e :: hist s) = match nth_error (gs_ s) g with Some x => if gt x =? t then cnt (is_use g o) ac else 0 | None => 0 end) ->
    good e (hist s) ->
    inv (MkS (ms s) (gs_ s) ac false (e :: hist s)).
  Proof.
    intros [U M G A S O H D] E1 E2 E3 E4 E5 E6. constructor; cbn [ub ms gs_ acc hist]; auto.
    - intros g o J. destruct (E4 _ _ J) as [K|K]; [exact (A _ _ K)|exact K].
    - intros g. rewrite E1. apply O.
    - intros h2 h1 g t m E. destruct h2 as [|y h2]; cbn in E; [injection E as E _; exfalso; exact (E3 _ _ _ _ E)|].
      injection E as <- E. destruct (H _ _ _ _ _ E) as [K|K]; [left; apply destroyed_cons, K|]. right. rewrite E2. exact K.
    - split; assumption.
  Qed.

  Lemma inv_get s g o s' : inv s -> exec objs chk care s (LGet g o) = Some s' -> inv s'.
  Proof.
    intros I X. unfold exec in X. rewrite (i_ub I) in X. destruct (nth_error (gs_ s) g) as [x|] eqn:Eg; [|discriminate].
    destruct (nth_error objs o) as [b|] eqn:Eo; [|discriminate]. destruct (gm x) as [m|] eqn:Em; [|discriminate].
    destruct (glive x) eqn:El; [|discriminate]. cbn [andb] in X.
    pose proof (i_org I g) as Og. rewrite Eg in Og. destruct Og as (m' & Og & Om). specialize (Om _ Em). subst m'.
    destruct (negb care || owns_lock x (om b)) eqn:Ec; [|discriminate].
    destruct (chk && negb (owns_lock x (om b))) eqn:Ek; injection X as <-.
    - apply inv_event; auto; try discriminate; [exact (i_uses I)|]. apply andb_true_iff in Ek. destruct Ek as (K & W). cbn. split; [exact K|].
      exists b, m, (gs x). repeat split; auto. unfold owns_lock in W. rewrite Em in W. apply negb_true_iff, Nat.eqb_neq in W. exact W.
    - assert (R : chk || care = true -> m = om b).
      { unfold owns_lock in *. rewrite Em in *. destruct (m =? om b) eqn:W; [intros _; apply Nat.eqb_eq, W|]. cbn in *. intros Z. exfalso. destruct chk, care; discriminate. }
      apply inv_event; auto; try discriminate.
      + intros g' o' [E|J]; [|left; exact J]. injection E as <- <-. right. exists x, m, b. auto.
      + intros t g' o'. cbn [uses same cnt]. rewrite (i_uses I). unfold same.
        rewrite (Nat.eqb_sym g' g), (Nat.eqb_sym o' o). replace (is_use g' o' (g, o)) with ((g =? g') && (o =? o')) by reflexivity. destruct (g =? g') eqn:Q.
        * apply Nat.eqb_eq in Q. subst g'. rewrite Eg, (Nat.eqb_sym t (gt x)). destruct (gt x =? t), (o =? o'); cbn; reflexivity.
        * destruct (nth_error (gs_ s) g') as [x'|]; rewrite ?andb_false_r; cbn; [|destruct (t =? gt x); reflexivity]. destruct (t =? gt x), (gt x' =? t); reflexivity.
      + cbn. exists b, m, (gs x). split; [exact Eo|]. split; [exact Og|]. split; [exact R|].
        intros h2 h1 g' t' E. destruct (i_hold I _ _ _ _ _ E) as [K|(y & Y1 & Y2 & Y3)]; [left; exact K|right].
        destruct (@m_ex s m _ y x g I Y1 Y3 Eg El Em) as (Z & _). congruence.
  Qed.

  Lemma inv_end s g o s' : inv s -> exec objs chk care s (LEnd g o) = Some s' -> inv s'.
  Proof.
    intros I X. unfold exec in X. rewrite (i_ub I) in X. destruct (nth_error (gs_ s) g) as [x|] eqn:Eg; [|discriminate].
    destruct (in_use s g o) eqn:Eu; [|discriminate]. injection X as <-.
    apply inv_event; auto; try discriminate; [| |exact Logic.I].
    - intros g' o' J. left. exact (in_remove _ _ _ _ J).
    - intros t g' o'. cbn [uses same]. rewrite (i_uses I), cnt_remove. unfold same.
      rewrite (Nat.eqb_sym g' g), (Nat.eqb_sym o' o). destruct (g =? g') eqn:Q.
      * apply Nat.eqb_eq in Q. subst g'. rewrite Eg, (Nat.eqb_sym t (gt x)). destruct (gt x =? t), (o =? o'); cbn; lia.
      * rewrite andb_false_r. cbn. destruct (nth_error (gs_ s) g') as [x'|]; [|reflexivity]. destruct (gt x' =? t); lia.
  Qed.

  Lemma inv_hold s t m sh s' : inv s -> exec objs chk care s (LHold t m sh) = Some s' -> inv s'.
  Proof.
    intros I X. unfold exec in X. rewrite (i_ub I) in X. destruct (nth_error (ms s) m) as [x|] eqn:Em; [|discriminate].
    destruct (m_lock x t sh) as [x'|] eqn:Ex; [|discriminate]. injection X as <-.
    pose proof (nth_some_lt _ _ Em) as Lm.
    assert (New : nth_error (gs_ s) (length (gs_ s)) = None) by (apply nth_error_None; lia).
    constructor; cbn [ub ms gs_ acc hist]; auto.
    - intros k z. rewrite nth_upd. destruct (k =? m) eqn:Q.
      + apply Nat.eqb_eq in Q. subst k. apply Nat.ltb_lt in Lm. rewrite Lm. intros E. injection E as <-.
        pose proof (i_m I _ Em) as K.
        assert (C : forall b, cnt (onm m b) (gs_ s ++ [MkG t (Some m) sh true]) = cnt (onm m b) (gs_ s) + (if Bool.eqb sh b then 1 else 0)).
        { intros b. rewrite cnt_app. cbn. unfold onm at 2. cbn. rewrite Nat.eqb_refl, andb_true_r. destruct (Bool.eqb sh b); reflexivity. }
        destruct x as [|u n|n], sh; cbn in Ex; try discriminate.
        * injection Ex as <-. cbn in *. rewrite !C. cbn. destruct K. repeat split; lia.
        * injection Ex as <-. cbn in *. rewrite !C. cbn. destruct K as (K1 & K2). repeat split; try lia.
          intros g y. rewrite nth_snoc. destruct (g =? length (gs_ s)); [intros E; injection E as <-; reflexivity|].
          intros E O. pose proof (cnt_pos _ _ _ E O). lia.
        * destruct (u =? t) eqn:Q; [|discriminate]. apply Nat.eqb_eq in Q. subst u. injection Ex as <-. cbn in *. rewrite !C. cbn.
          destruct K as (K1 & K2 & K3 & K4). repeat split; try lia.
          intros g y. rewrite nth_snoc. destruct (g =? length (gs_ s)); [intros E; injection E as <-; reflexivity|]. apply K4.
        * injection Ex as <-. cbn in *. rewrite !C. cbn. repeat split; lia.
      + intros E. pose proof (i_m I _ E) as K.
        assert (C : forall b, cnt (onm k b) (gs_ s ++ [MkG t (Some m) sh true]) = cnt (onm k b) (gs_ s)).
        { intros b. rewrite cnt_app. cbn. unfold onm at 2. cbn. rewrite (Nat.eqb_sym m k), Q, andb_false_r. cbn. lia. }
        destruct z; cbn [m_ok] in *; rewrite !C; auto. destruct K as (K1 & K2 & K3 & K4). repeat split; auto.
        intros g y. rewrite nth_snoc. destruct (g =? length (gs_ s)); [|apply K4]. intros E1 O. injection E1 as <-.
        apply onm_spec in O. cbn in O. destruct O as (_ & _ & O). injection O as ->. rewrite Nat.eqb_refl in Q. discriminate.
    - intros g y k. rewrite nth_snoc, len_upd. destruct (g =? length (gs_ s)); [|exact (@i_g s I g y k)].
      intros E1 E2. injection E1 as <-. cbn in E2. injection E2 as <-. exact Lm.
    - intros g o J. destruct (i_acc I _ _ J) as (y & k & b & Y1 & Y). exists y, k, b. split; [|exact Y].
      rewrite nth_snoc. destruct (g =? length (gs_ s)) eqn:Q; [apply Nat.eqb_eq in Q; congruence|exact Y1].
    - intros u g o. cbn [uses]. rewrite (i_uses I), nth_snoc. destruct (g =? length (gs_ s)) eqn:Q; [|reflexivity].
      apply Nat.eqb_eq in Q. subst g. rewrite New. cbn. destruct (t =? u); [|reflexivity].
      destruct (cnt (is_use (length (gs_ s)) o) (acc s)) eqn:C; [reflexivity|].
      assert (J : In (length (gs_ s), o) (acc s)) by (apply cnt_in; lia). destruct (i_acc I _ _ J) as (y & k & b & Y1 & _). congruence.
    - intros g. rewrite nth_snoc. cbn [origin]. rewrite (Nat.eqb_sym (length (gs_ s)) g). destruct (g =? length (gs_ s)); [|exact (i_org I g)].
      exists m. split; [reflexivity|]. intros k E. injection E as <-. reflexivity.
    - intros h2 h1 g u k E. destruct h2 as [|e h2]; cbn in E.
      + injection E as E1 E2 E3 E4 _. subst g u k sh. right. exists (MkG t (Some m) false true). cbn [current gt]. rewrite nth_snoc, Nat.eqb_refl. repeat split. apply onm_spec. auto.
      + injection E as <- E. destruct (i_hold I _ _ _ _ _ E) as [K|(y & Y1 & Y)]; [left; apply destroyed_cons, K|]. right. exists y. cbn [current].
        split; [|exact Y]. rewrite nth_snoc. destruct (current g h2 =? length (gs_ s)) eqn:Q; [apply Nat.eqb_eq in Q; congruence|exact Y1].
    - split; [exact Logic.I|exact (i_good I)].
  Qed.

  Lemma inv_move s g s' : inv s -> exec objs chk care s (LMove g) = Some s' -> inv s'.
  Proof.
    intros I X. unfold exec in X. rewrite (i_ub I) in X. destruct (nth_error (gs_ s) g) as [x|] eqn:Eg; [|discriminate].
    destruct (glive x) eqn:El; [|discriminate]. destruct (busy s g) eqn:Eb; [discriminate|]. cbn [andb negb] in X.
    destruct (gm x) as [m|] eqn:Em; [|discriminate]. injection X as <-.
    pose proof (nth_some_lt _ _ Eg) as Lg. apply Nat.ltb_lt in Lg as Lg2.
    set (l := upd (gs_ s) g (MkG (gt x) None (gs x) true)).
    assert (Ll : length l = length (gs_ s)) by apply len_upd.
    assert (N : forall k, nth_error (l ++ [MkG (gt x) (Some m) (gs x) true]) k =
                  if k =? length (gs_ s) then Some (MkG (gt x) (Some m) (gs x) true) else if k =? g then Some (MkG (gt x) None (gs x) true) else nth_error (gs_ s) k).
    { intros k. rewrite nth_snoc, Ll. destruct (k =? length (gs_ s)); [reflexivity|]. unfold l. rewrite nth_upd, Lg2. reflexivity. }
    assert (C : forall k b, cnt (onm k b) (l ++ [MkG (gt x) (Some m) (gs x) true]) = cnt (onm k b) (gs_ s)).
    { intros k b. rewrite cnt_app. cbn. unfold l. pose proof (cnt_upd (onm k b) _ _ (MkG (gt x) None (gs x) true) Eg) as U.
      assert (Z : onm k b (MkG (gt x) None (gs x) true) = false) by (unfold onm; cbn; apply andb_false_r).
      assert (W : onm k b (MkG (gt x) (Some m) (gs x) true) = onm k b x) by (unfold onm; cbn; rewrite El, Em; reflexivity).
      rewrite Z in U. rewrite W. cbn in U. lia. }
    assert (New : nth_error (gs_ s) (length (gs_ s)) = None) by (apply nth_error_None; lia).
    assert (Free : forall o, cnt (is_use g o) (acc s) = 0).
    { intros o. destruct (cnt (is_use g o) (acc s)) eqn:Q; [reflexivity|]. exfalso. apply (@busy_false s g o Eb). apply cnt_in. lia. }
    constructor; cbn [ub ms gs_ acc hist]; auto.
    - intros k z E. pose proof (i_m I _ E) as K. destruct z as [|u n|n]; cbn in *; rewrite !C; auto. destruct K as (K1 & K2 & K3 & K4). repeat split; auto.
      intros j y. rewrite N. destruct (j =? length (gs_ s)); [|destruct (j =? g); [|apply K4]].
      + intros E1 O. injection E1 as <-. apply (K4 _ _ Eg). apply onm_spec in O. apply onm_spec. cbn in O. destruct O as (_ & O1 & O2). rewrite Em. auto.
      + intros E1 O. injection E1 as <-. apply onm_spec in O. cbn in O. destruct O as (_ & _ & O). discriminate.
    - intros j y k. rewrite N. destruct (j =? length (gs_ s)); [|destruct (j =? g); [|exact (@i_g s I j y k)]].
      + intros E1 E2. injection E1 as <-. apply (i_g I _ Eg). rewrite Em. exact E2.
      + intros E1 E2. injection E1 as <-. discriminate.
    - intros j o J. destruct (i_acc I _ _ J) as (y & k & b & Y1 & Y). exists y, k, b. split; [|exact Y].
      rewrite N. destruct (j =? length (gs_ s)) eqn:Q; [apply Nat.eqb_eq in Q; congruence|].
      destruct (j =? g) eqn:Q2; [|exact Y1]. apply Nat.eqb_eq in Q2. subst j. exfalso. exact (@busy_false s g o Eb J).
    - intros u j o. cbn [uses]. rewrite (i_uses I), N. destruct (j =? length (gs_ s)) eqn:Q; [|destruct (j =? g) eqn:Q2; [|reflexivity]].
      + apply Nat.eqb_eq in Q. subst j. rewrite New. cbn [gt]. destruct (gt x =? u); [|reflexivity].
        destruct (cnt (is_use (length (gs_ s)) o) (acc s)) eqn:Cn; [reflexivity|].
        assert (J : In (length (gs_ s), o) (acc s)) by (apply cnt_in; lia). destruct (i_acc I _ _ J) as (y & k & b & Y1 & _). congruence.
      + apply Nat.eqb_eq in Q2. subst j. rewrite Eg. cbn [gt]. reflexivity.
    - intros j. rewrite N. cbn [origin]. rewrite (Nat.eqb_sym (length (gs_ s)) j). destruct (j =? length (gs_ s)) eqn:Q.
      + pose proof (i_org I g) as Og. rewrite Eg in Og. destruct Og as (m' & Og & Om). exists m'. split; [exact Og|]. cbn. rewrite <- Em. exact Om.
      + destruct (j =? g) eqn:Q2; [|exact (i_org I j)]. apply Nat.eqb_eq in Q2. subst j.
        pose proof (i_org I g) as Og. rewrite Eg in Og. destruct Og as (m' & Og & Om). exists m'. split; [exact Og|]. cbn. discriminate.
    - intros h2 h1 j u k E. destruct h2 as [|e h2]; cbn in E; [discriminate|].
      injection E as <- E. destruct (i_hold I _ _ _ _ _ E) as [K|(y & Y1 & Y2 & Y3)]; [left; apply destroyed_cons, K|]. right. cbn [current].
      destruct (current j h2 =? g) eqn:Q.
      + apply Nat.eqb_eq in Q. rewrite Q, Eg in Y1. injection Y1 as ->. exists (MkG (gt y) (Some m) (gs y) true). rewrite N, Nat.eqb_refl. cbn [gt]. repeat split; auto.
        apply onm_spec in Y3. apply onm_spec. cbn. rewrite Em in Y3. tauto.
      + exists y. rewrite N, Q. destruct (current j h2 =? length (gs_ s)) eqn:Q2; [apply Nat.eqb_eq in Q2; congruence|auto].
    - split; [exact Logic.I|exact (i_good I)].
  Qed.

  Lemma inv_drop s g s' : inv s -> exec objs chk care s (LDrop g) = Some s' -> inv s'.
  Proof.
    intros I X. unfold exec in X. rewrite (i_ub I) in X. destruct (nth_error (gs_ s) g) as [x|] eqn:Eg; [|discriminate].
    destruct (glive x) eqn:El; [|discriminate]. destruct (busy s g) eqn:Eb; [discriminate|]. cbn [andb negb] in X.
    pose proof (nth_some_lt _ _ Eg) as Lg. apply Nat.ltb_lt in Lg as Lg2.
    assert (Main : forall msl, length msl = length (ms s) ->
      (forall m z, nth_error msl m = Some z -> m_ok (upd (gs_ s) g (MkG (gt x) (gm x) (gs x) false)) m z) ->
      inv (MkS msl (upd (gs_ s) g (MkG (gt x) (gm x) (gs x) false)) (acc s) false (EDropped g :: hist s))).
    { intros msl Len Mo.
      assert (N : forall k, nth_error (upd (gs_ s) g (MkG (gt x) (gm x) (gs x) false)) k = if k =? g then Some (MkG (gt x) (gm x) (gs x) false) else nth_error (gs_ s) k).
      { intros k. rewrite nth_upd, Lg2. reflexivity. }
      constructor; cbn [ub ms gs_ acc hist]; auto.
      - intros j y k. rewrite N, Len. destruct (j =? g); [|exact (@i_g s I j y k)]. intros E1 E2. injection E1 as <-. exact (i_g I _ Eg E2).
      - intros j o J. destruct (i_acc I _ _ J) as (y & k & b & Y1 & Y). exists y, k, b. split; [|exact Y].
        rewrite N. destruct (j =? g) eqn:Q2; [|exact Y1]. apply Nat.eqb_eq in Q2. subst j. exfalso. exact (@busy_false s g o Eb J).
      - intros u j o. cbn [uses]. rewrite (i_uses I), N. destruct (j =? g) eqn:Q; [|reflexivity]. apply Nat.eqb_eq in Q. subst j. rewrite Eg. reflexivity.
      - intros j. rewrite N. cbn [origin]. destruct (j =? g) eqn:Q; [|exact (i_org I j)]. apply Nat.eqb_eq in Q. subst j.
        pose proof (i_org I g) as Og. rewrite Eg in Og. exact Og.
      - intros h2 h1 j u k E. destruct h2 as [|e h2]; cbn in E; [discriminate|].
        injection E as <- E. destruct (i_hold I _ _ _ _ _ E) as [K|(y & Y1 & Y2 & Y3)]; [left; apply destroyed_cons, K|].
        destruct (current j h2 =? g) eqn:Q.
        + left. apply Nat.eqb_eq in Q. exists [], h2. rewrite Q. reflexivity.
        + right. cbn [current]. exists y. rewrite N, Q. auto.
      - split; [exact Logic.I|exact (i_good I)]. }
    destruct (gm x) as [m|] eqn:Em.
    - destruct (nth_error (ms s) m) as [y|] eqn:Ey; [|discriminate]. pose proof (i_m I _ Ey) as K. pose proof (nth_some_lt _ _ Ey) as Lm. apply Nat.ltb_lt in Lm.
      assert (On : onm m (gs x) x = true) by (apply onm_spec; auto).
      pose proof (cnt_pos _ _ _ Eg On) as P.
      assert (C : forall k b, cnt (onm k b) (upd (gs_ s) g (MkG (gt x) (Some m) (gs x) false)) = cnt (onm k b) (gs_ s) - b2n (onm k b x)).
      { intros k b. pose proof (cnt_upd (onm k b) _ _ (MkG (gt x) (Some m) (gs x) false) Eg) as U.
        assert (Z : onm k b (MkG (gt x) (Some m) (gs x) false) = false) by reflexivity. rewrite Z in U. cbn [b2n] in U. lia. }
      assert (Ob : onm m (negb (gs x)) x = false).
      { destruct (onm m (negb (gs x)) x) eqn:Z; [|reflexivity]. apply onm_spec in Z. destruct Z as (_ & Z & _). destruct (gs x); discriminate. }
      assert (Ho : forall u, (forall j z, nth_error (gs_ s) j = Some z -> onm m false z = true -> gt z = u) ->
                forall j z, nth_error (upd (gs_ s) g (MkG (gt x) (Some m) (gs x) false)) j = Some z -> onm m false z = true -> gt z = u).
      { intros u H j z. rewrite nth_upd, Lg2. destruct (j =? g); [|apply H]. intros E O. injection E as <-. discriminate. }
      assert (Other : forall k z, k <> m -> nth_error (ms s) k = Some z -> m_ok (upd (gs_ s) g (MkG (gt x) (Some m) (gs x) false)) k z).
      { intros k z Ne E. pose proof (i_m I _ E) as Kz.
        assert (Oz : forall b, onm k b x = false).
        { intros b. destruct (onm k b x) eqn:Z; [|reflexivity]. apply onm_spec in Z. destruct Z as (_ & _ & Z). congruence. }
        assert (Cz : forall b, cnt (onm k b) (upd (gs_ s) g (MkG (gt x) (Some m) (gs x) false)) = cnt (onm k b) (gs_ s)) by (intros b; rewrite C, Oz; cbn; lia).
        destruct z; cbn [m_ok] in *; rewrite !Cz; auto. destruct Kz as (K1 & K2 & K3 & K4). repeat split; auto.
        intros j z. rewrite nth_upd, Lg2. destruct (j =? g); [|apply K4]. intros E1 O. injection E1 as <-. discriminate. }
      assert (Fin : forall y', m_ok (upd (gs_ s) g (MkG (gt x) (Some m) (gs x) false)) m y' ->
                inv (MkS (upd (ms s) m y') (upd (gs_ s) g (MkG (gt x) (Some m) (gs x) false)) (acc s) false (EDropped g :: hist s))).
      { intros y' Ok. apply Main; [apply len_upd|]. intros k z. rewrite nth_upd, Lm. destruct (k =? m) eqn:Q.
        - apply Nat.eqb_eq in Q. subst k. intros E. injection E as <-. exact Ok.
        - apply Nat.eqb_neq in Q. intros E. exact (Other _ _ Q E). }
      destruct (gs x) eqn:Es; cbn [negb] in Ob.
      + (* shared *) destruct y as [|u n|n]; cbn in K; try lia. destruct K as (K1 & K2 & K3). destruct n as [|n]; [lia|]. cbn in X. injection X as <-. apply Fin.
        pose proof (C m true) as C1. pose proof (C m false) as C2. rewrite On in C1. rewrite Ob in C2. cbn in C1, C2.
        destruct n; cbn; rewrite C1, C2; repeat split; lia.
      + destruct y as [|u n|n]; cbn in K; try lia. destruct K as (K1 & K2 & K3 & K4). destruct n as [|n]; [lia|]. cbn in X.
        rewrite <- (K4 _ _ Eg On), Nat.eqb_refl in X. injection X as <-. apply Fin.
        pose proof (C m false) as C1. pose proof (C m true) as C2. rewrite On in C1. rewrite Ob in C2. cbn in C1, C2.
        destruct n; cbn; rewrite C1, C2; repeat split; try lia. intros j z J O. rewrite (K4 _ _ Eg On). exact (Ho u K4 j z J O).
    - injection X as <-. apply Main; [reflexivity|]. intros m z E. pose proof (i_m I _ E) as K.
      assert (C : forall b, cnt (onm m b) (upd (gs_ s) g (MkG (gt x) None (gs x) false)) = cnt (onm m b) (gs_ s)).
      { intros b. pose proof (cnt_upd (onm m b) _ _ (MkG (gt x) None (gs x) false) Eg) as U.
        assert (Z : onm m b (MkG (gt x) None (gs x) false) = false) by reflexivity. rewrite Z in U.
        assert (W : onm m b x = false) by (unfold onm; rewrite Em; apply andb_false_r). rewrite W in U. cbn in U. lia. }
      destruct z; cbn [m_ok] in *; rewrite !C; auto. destruct K as (K1 & K2 & K3 & K4). repeat split; auto.
      intros j z. rewrite nth_upd, Lg2. destruct (j =? g); [|apply K4]. intros E1 O. injection E1 as <-. discriminate.
  Qed.

  Lemma inv_exec s l s' : inv s -> exec objs chk care s l = Some s' -> inv s'.
  Proof.
    destruct l; intros I X; [exact (inv_hold _ _ _ I X)|exact (inv_move _ I X)|exact (inv_drop _ I X)|exact (inv_get _ _ I X)|exact (inv_end _ _ I X)].
  Qed.
  Lemma inv_reach n s : reach objs chk care n s -> inv s.
  Proof.
    intros (ls & R). assert (G : forall s0, inv s0 -> runl objs chk care s0 ls = Some s -> inv s).
    { clear R. induction ls as [|l ls IH]; intros s0 I R; cbn in R; [injection R as <-; exact I|].
      destruct (exec objs chk care s0 l) as [s1|] eqn:X; [|discriminate]. exact (IH _ (@inv_exec s0 l s1 I X) R). }
    exact (G _ (inv0 n) R).
  Qed.
  Lemma goods_mid h2 e h1 : goods (h2 ++ e :: h1) -> good e h1.
  Proof. induction h2 as [|x h2 IH]; cbn; [intros (G & _); exact G|intros (_ & G); exact (IH G)]. Qed.

  (** uses in progress go through guards *)
  Lemma use_guard s t g o : inv s -> uses t g o (hist s) > 0 ->
    exists x m b, nth_error (gs_ s) g = Some x /\ gt x = t /\ glive x = true /\ gm x = Some m /\ nth_error objs o = Some b /\ (chk || care = true -> m = om b) /\ origin g (hist s) = Some (t, m, gs x).
  Proof.
    intros I U. rewrite (i_uses I) in U. destruct (nth_error (gs_ s) g) as [x|] eqn:E; [|lia]. destruct (gt x =? t) eqn:T; [|lia]. apply Nat.eqb_eq in T.
    apply cnt_in in U. destruct (i_acc I _ _ U) as (y & m & b & Y1 & Y2 & Y3 & Y4 & Y5). rewrite E in Y1. injection Y1 as <-.
    exists x, m, b. pose proof (i_org I g) as O. rewrite E in O. destruct O as (m' & O & O2). rewrite <- (O2 _ Y3), T in O. repeat split; auto.
  Qed.
End Inv.
