(** * Which continuations are launched *)
From Coq Require Import List Arith Bool Lia.
From Verif Require Import OV_Spec OV_Inv.
Import ListNotations.
Set Implicit Arguments.

Definition pend (s : sys) : list nat := (match pc s with PLaunch l _ => l | _ => [] end) ++ conts s.
Definition sum (n : nat) (s : sys) : nat := count_occ Nat.eq_dec (pend s) n + tries n (hist s).
Record linv (s : sys) : Prop := {
  l_once : forall n, sum n s <= 1 ;
  l_new : forall n, nxt s <= n -> sum n s = 0 ;
  l_all : unfailed (hist s) -> forall n, n < nxt s -> sum n s = 1 ;
  l_ready : done s = false -> forall n, tries n (hist s) = 0
}.
Lemma unfailed_tail x h : unfailed (x :: h) -> unfailed h.
Proof. intros H n e Hin. apply (H n e). now right. Qed.
(** A step that neither launches nor attaches *)
Lemma linv_same s s' : linv s -> (forall n, count_occ Nat.eq_dec (pend s') n = count_occ Nat.eq_dec (pend s) n) -> nxt s' = nxt s ->
  (hist s' = hist s \/ exists x, hist s' = x :: hist s /\ forall n, try_of n x = false) -> (done s' = false -> done s = false) -> linv s'.
Proof.
  intros I Hp Hn Hh Hd.
  assert (Ht : forall n, tries n (hist s') = tries n (hist s)) by (intros n; destruct Hh as [->|(x & -> & Hx)]; [reflexivity|unfold tries; cbn; now rewrite Hx]).
  assert (Hs : forall n, sum n s' = sum n s) by (intros n; unfold sum; now rewrite Hp, Ht).
  constructor.
  - intros n. rewrite Hs. exact (l_once I n).
  - intros n. rewrite Hs, Hn. exact (@l_new _ I n).
  - intros Hu n. rewrite Hs, Hn. apply (l_all I). destruct Hh as [E|(x & E & _)]; rewrite E in Hu; [exact Hu|exact (unfailed_tail Hu)].
  - intros H n. rewrite Ht. exact (@l_ready _ I (Hd H) n).
Qed.
Lemma step_linv k s s' : inv k s -> linv s -> step k s s' -> linv s'.
Proof.
  intros V I Hst. destruct Hst as [s v Hk Hp|s e Hk Hp|s e Hk Hp|s e Hk Hp|s e Hp|s v Hk Hp|s e Hk Hp|s Hp|s n l h Hp|s n l h e Hp|s h Hp|s Hd|s Hd|s e Hd|s t].
  all: try (refine (@linv_same s _ I _ _ _ _); [intros n0; unfold pend; cbn; now rewrite ?Hp, ?app_nil_r|reflexivity
    |cbn; first [left; reflexivity|right; eexists; split; [reflexivity|reflexivity]]|cbn; auto; discriminate]; fail).
  - (* launch *) assert (E : forall m, sum m (Sys (done s) (res s) (exc s) (conts s) (nxt s) (PLaunch l h) (ELaunch n :: hist s)) = sum m s).
    { intros m. unfold sum, tries, pend. rewrite Hp. cbn [pc conts hist filter try_of app count_occ]. destruct (Nat.eq_dec n m) as [->|Hne].
      - rewrite Nat.eqb_refl. cbn [length]. lia.
      - apply Nat.eqb_neq in Hne. rewrite Hne. reflexivity. }
    constructor; cbn [nxt hist done].
    + intros m. rewrite E. exact (l_once I m).
    + intros m. rewrite E. exact (@l_new _ I m).
    + intros Hu m. rewrite E. exact (@l_all _ I (unfailed_tail Hu) m).
    + intros Hd. pose proof (i_pc V) as P. unfold at_pc in P. rewrite Hp in P. destruct h; [destruct P as (A & _)|destruct P as (_ & A & _)]; congruence.
  - (* fail *) assert (Hd : done s = true) by (pose proof (i_pc V) as P; unfold at_pc in P; rewrite Hp in P; destruct h; [destruct P as (A & _)|destruct P as (_ & A & _)]; exact A).
    assert (E : forall m p g, (p = PGone e /\ g = [EGone e] \/ p = PCatch e /\ g = []) -> sum m (Sys (done s) (res s) (exc s) (conts s) (nxt s) p (g ++ EFail n e :: hist s)) <= sum m s).
    { intros m p g H. unfold sum, tries, pend. rewrite Hp. cbn [pc conts hist]. rewrite filter_app, app_length, count_occ_app. cbn [filter try_of app count_occ].
      assert (Eg : length (filter (try_of m) g) = 0) by (destruct H as [(_ & ->)|(_ & ->)]; reflexivity). rewrite Eg.
      replace (match p with PLaunch l0 _ => l0 | _ => [] end) with (@nil nat) by (destruct H as [(-> & _)|(-> & _)]; reflexivity). cbn [count_occ].
      rewrite (count_occ_app _ l). destruct (Nat.eq_dec n m) as [->|Hne]; [rewrite Nat.eqb_refl; cbn [length]; lia|]. apply Nat.eqb_neq in Hne. rewrite Hne. lia. }
    destruct h; [pose proof (fun m => E m (PGone e) [EGone e] (or_introl (conj eq_refl eq_refl))) as F|pose proof (fun m => E m (PCatch e) [] (or_intror (conj eq_refl eq_refl))) as F];
      cbn [app] in F; (constructor; cbn [nxt hist done];
        [intros m; pose proof (F m); pose proof (l_once I m); lia
        |intros m Hm; pose proof (F m); pose proof (@l_new _ I m Hm); lia
        |intros Hu; exfalso; apply (Hu n e); cbn; auto|intros A; congruence]).
  - (* then *) assert (E : forall m, sum m (Sys (done s) (res s) (exc s) (conts s ++ [nxt s]) (S (nxt s)) (pc s) (hist s)) = sum m s + if Nat.eq_dec (nxt s) m then 1 else 0).
    { intros m. unfold sum, pend. cbn [pc conts hist]. rewrite !count_occ_app. cbn [count_occ]. destruct (Nat.eq_dec (nxt s) m); lia. }
    constructor; cbn [nxt hist done].
    + intros m. rewrite E. destruct (Nat.eq_dec (nxt s) m) as [<-|Hne]; [rewrite (l_new I (le_n (nxt s))); lia|]. pose proof (l_once I m). lia.
    + intros m Hm. rewrite E. destruct (Nat.eq_dec (nxt s) m) as [<-|Hne]; [lia|]. rewrite (l_new I (n := m)); lia.
    + intros Hu m Hm. rewrite E. destruct (Nat.eq_dec (nxt s) m) as [<-|Hne]; [rewrite (l_new I (le_n (nxt s))); lia|]. rewrite (l_all I Hu (n := m)); lia.
    + intros _. exact (l_ready I Hd).
  - (* then, ready *) assert (E : forall m, sum m (Sys (done s) (res s) (exc s) (conts s) (S (nxt s)) (pc s) (ELaunch (nxt s) :: hist s)) = sum m s + if Nat.eq_dec (nxt s) m then 1 else 0).
    { intros m. unfold sum, pend, tries. cbn [pc conts hist filter try_of]. destruct (Nat.eq_dec (nxt s) m) as [<-|Hne]; [rewrite Nat.eqb_refl; cbn [length]; lia|].
      apply Nat.eqb_neq in Hne. rewrite Hne. lia. }
    constructor; cbn [nxt hist done].
    + intros m. rewrite E. destruct (Nat.eq_dec (nxt s) m) as [<-|Hne]; [rewrite (l_new I (le_n (nxt s))); lia|]. pose proof (l_once I m). lia.
    + intros m Hm. rewrite E. destruct (Nat.eq_dec (nxt s) m) as [<-|Hne]; [lia|]. rewrite (l_new I (n := m)); lia.
    + intros Hu m Hm. rewrite E. destruct (Nat.eq_dec (nxt s) m) as [<-|Hne]; [rewrite (l_new I (le_n (nxt s))); lia|]. rewrite (l_all I (unfailed_tail Hu) (n := m)); lia.
    + intros A. congruence.
  - (* then, ready, fails *) assert (E : forall m, sum m (Sys (done s) (res s) (exc s) (conts s) (S (nxt s)) (pc s) (EThen (nxt s) e :: hist s)) = sum m s + if Nat.eq_dec (nxt s) m then 1 else 0).
    { intros m. unfold sum, pend, tries. cbn [pc conts hist filter try_of]. destruct (Nat.eq_dec (nxt s) m) as [<-|Hne]; [rewrite Nat.eqb_refl; cbn [length]; lia|].
      apply Nat.eqb_neq in Hne. rewrite Hne. lia. }
    constructor; cbn [nxt hist done].
    + intros m. rewrite E. destruct (Nat.eq_dec (nxt s) m) as [<-|Hne]; [rewrite (l_new I (le_n (nxt s))); lia|]. pose proof (l_once I m). lia.
    + intros m Hm. rewrite E. destruct (Nat.eq_dec (nxt s) m) as [<-|Hne]; [lia|]. rewrite (l_new I (n := m)); lia.
    + intros Hu m Hm. rewrite E. destruct (Nat.eq_dec (nxt s) m) as [<-|Hne]; [rewrite (l_new I (le_n (nxt s))); lia|]. rewrite (l_all I (unfailed_tail Hu) (n := m)); lia.
    + intros A. congruence.
Qed.
Lemma reach_linv k s : reach k s -> linv s.
Proof.
  intros Hr. induction Hr as [|s s' Hr IH Hst]; [|exact (step_linv (reach_inv Hr) IH Hst)].
  constructor; cbn; [intros n; unfold sum, tries; cbn; lia|reflexivity|intros _ n Hn; lia|reflexivity].
Qed.
Lemma done_fun k s : reach k s -> done s = true -> exists o, In (EFun o) (hist s).
Proof.
  intros Hr Hd. pose proof (i_pc (reach_inv Hr)) as P. unfold at_pc in P. destruct (pc s) as [| |l h|e| |e].
  - destruct P as (A & _). congruence.
  - destruct P as (_ & A & _). congruence.
  - destruct h; [destruct P as (_ & (o & A & _) & _)|destruct P as (_ & _ & _ & v & _ & _ & A)]; eauto.
  - destruct P as (_ & _ & [(A & _)|(v & n & _ & _ & A & _)]); [congruence|eauto].
  - destruct P as (_ & o & A & _). eauto.
  - destruct P as (_ & o & A & _). eauto.
Qed.
(** Launches come after the outcome *)
Lemma launch_after k s : reach k s -> forall h1 h2 x n, hist s = h1 ++ x :: h2 -> try_of n x = true -> exists o, In (EFun o) h2.
Proof.
  intros Hr h1 h2 x n Eh Hx. revert h1 Eh. induction Hr as [|s s' Hr IH Hst]; intros h1 Eh; [now destruct h1|].
  assert (K : forall y h, hist s' = y :: h -> (try_of n y = true -> done s = true) -> h = hist s -> exists o, In (EFun o) h2).
  { intros y h E Hy ->. rewrite E in Eh. destruct h1 as [|z h1]; injection Eh as E1 E2; [subst y h2; exact (done_fun Hr (Hy Hx))|exact (IH h1 E2)]. }
  assert (K0 : hist s' = hist s -> exists o, In (EFun o) h2) by (intros E; rewrite E in Eh; exact (IH h1 Eh)).
  pose proof (i_pc (reach_inv Hr)) as P. unfold at_pc in P.
  destruct Hst as [s v Hk Hp|s e Hk Hp|s e Hk Hp|s e Hk Hp|s e Hp|s v Hk Hp|s e Hk Hp|s Hp|s n0 l h Hp|s n0 l h e Hp|s h Hp|s Hd|s Hd|s e Hd|s t];
    try (apply K0; reflexivity); try (refine (K _ _ eq_refl _ eq_refl); first [discriminate|intros _; assumption]).
  - rewrite Hp in P. refine (K _ _ eq_refl _ eq_refl). intros _. destruct h; [destruct P as (A & _)|destruct P as (_ & A & _)]; exact A.
  - rewrite Hp in P. assert (Hd : done s = true) by (destruct h; [destruct P as (A & _)|destruct P as (_ & A & _)]; exact A).
    destruct h; cbn in Eh, K.
    + destruct h1 as [|z h1]; injection Eh as E1 E2; [subst x; discriminate|]. destruct h1 as [|z2 h1]; injection E2 as E2 E3; [subst h2; exact (done_fun Hr Hd)|exact (IH h1 E3)].
    + refine (K _ _ eq_refl _ eq_refl). intros _. exact Hd.
Qed.
(** When the producer has ended, a continuation not tried is never tried. *)
Lemma lost k s n : reach k s -> ended s -> n < nxt s -> tries n (hist s) = 0 -> forall s', later k s s' -> tries n (hist s') = 0 /\ n < nxt s' /\ ended s'.
Proof.
  intros Hr He Hn Ht s' Hl. induction Hl as [|s' s'' Hl IH Hst]; [auto|]. destruct IH as (A & B & C).
  destruct Hst as [s1 v Hk Hp|s1 e Hk Hp|s1 e Hk Hp|s1 e Hk Hp|s1 e Hp|s1 v Hk Hp|s1 e Hk Hp|s1 Hp|s1 n0 l h Hp|s1 n0 l h e Hp|s1 h Hp|s1 Hd|s1 Hd|s1 e Hd|s1 t];
    try (destruct C as [C|(e0 & C)]; rewrite C in Hp; discriminate); cbn [nxt hist]; (split; [|split; [lia|exact C]]);
    unfold tries in *; cbn [filter try_of]; try exact A; (replace (nxt s1 =? n) with false by (symmetry; apply Nat.eqb_neq; lia)); exact A.
Qed.
