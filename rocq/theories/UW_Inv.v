(** * The invariant of unwrap() holds in all reachable states *)
From Verif Require Import UW_Model UW_Spec UW_Proofs.
Set Implicit Arguments.

Ltac lk := repeat match goal with
  | H : option_map _ (nth_error ?l ?k) = Some _ |- _ => let E := fresh "E" in destruct (nth_error l k) eqn:E; cbn [option_map] in H; [|discriminate H]
  | H : Some _ = Some _ |- _ => injection H as H
  end.

Lemma sta_F s s' F es : sta s -> (forall k, nth_error (sts s') k = option_map (F k) (nth_error (sts s) k)) ->
  hist s' = es ++ hist s -> length es <= 1 -> (forall e, In e es -> ev_ok s s' e) ->
  (forall k x, nth_error (sts s) k = Some x -> src (F k x) = src x /\ ty (F k x) = ty x /\ (out x <> None -> out (F k x) <> None)) ->
  (ext (sts s) (sts s') -> forall k x, nth_error (sts s) k = Some x ->
    (out (F k x) = out x \/ out_ok s' k (F k x)) /\ (inner (F k x) = inner x \/ in_ok s' (F k x)) /\ (sd_ok x -> sd_ok (F k x))) ->
  sta s' /\ ext (sts s) (sts s').
Proof.
  intros HI HF Hh Hl Hev H1 H2.
  assert (He : ext (sts s) (sts s')).
  { intros j y Hy. exists (F j y). rewrite HF, Hy. destruct (H1 _ _ Hy) as (A & B & C). auto. }
  split; [|exact He]. apply (@sta_pres s s' es); auto.
  intros k x' Hx'. left. rewrite HF in Hx'. destruct (nth_error (sts s) k) as [x|] eqn:E; [|discriminate]. cbn in Hx'. injection Hx' as <-.
  exists x. destruct (H1 _ _ E) as (A & B & _). destruct (H2 He _ _ E) as (C & D & G). auto 10.
Qed.

Lemma movable_true s i : movable s i = true -> exists y, nth_error (sts s) i = Some y /\ user y = true /\ forall t z, nth_error (thrs s) t = Some z -> wt z <> Some i.
Proof.
  unfold movable. destruct (nth_error (sts s) i) as [y|]; [|discriminate]. intros H. apply andb_prop in H. destruct H as [Hu Hw]. exists y. repeat split; auto.
  intros t z Hz E. apply negb_true_iff in Hw. unfold waited in Hw. rewrite <- not_true_iff_false in Hw. apply Hw. apply existsb_exists. exists z.
  split; [eapply nth_error_In; eauto|]. rewrite E. apply Nat.eqb_refl.
Qed.
Lemma modify_id (A : Type) (l : list A) i : modify l i (fun x => x) = l.
Proof. revert i; induction l; destruct i; cbn; f_equal; auto. Qed.
Lemma modify_none (A : Type) (l : list A) i g : nth_error l i = None -> modify l i g = l.
Proof. revert i; induction l; destruct i; cbn; intros; try discriminate; f_equal; auto. Qed.
Lemma wt_upd ts t z z' t' y i : nth_error ts t = Some z -> nth_error (upd_thr ts t z') t' = Some y -> wt y = Some i -> wt z' = Some i \/ exists t'' y', nth_error ts t'' = Some y' /\ wt y' = Some i.
Proof.
  intros Hz Hy Ew. unfold upd_thr in Hy. rewrite nth_modify in Hy. destruct (t' =? t) eqn:Et.
  - destruct (nth_error ts t'); cbn in Hy; [|discriminate]. injection Hy as <-. auto.
  - right. eauto.
Qed.

Definition mvd (b : bool) (o : outcome) (k : nat) (x : st) : st := match o with Fut (Some j) => if k =? j then set_user b x else x | _ => x end.
Lemma nth_give' b o l k : nth_error (give b o l) k = option_map (mvd b o k) (nth_error l k).
Proof. rewrite nth_give. unfold mvd. destruct (nth_error l k); destruct o as [| |[j|]|]; cbn; try reflexivity; destruct (k =? j); reflexivity. Qed.
Lemma mvd_same b o k x : src (mvd b o k x) = src x /\ ty (mvd b o k x) = ty x /\ out (mvd b o k x) = out x /\ inner (mvd b o k x) = inner x /\
  started (mvd b o k x) = started x /\ conts (mvd b o k x) = conts x /\ (user (mvd b o k x) = user x \/ o = Fut (Some k)).
Proof. unfold mvd. destruct o as [| |[j|]|]; try (repeat split; auto; fail). destruct (k =? j) eqn:E; cbn; repeat split; auto. apply Nat.eqb_eq in E. subst. auto. Qed.

(** ** A promise is set, or a deferred function executed *)
Section SetIt.
Variables (s : sys) (t : nat) (x : thr) (i : nat) (y : st) (o : outcome) (g : st -> st) (w : option nat).
Hypothesis HI : inv s.
Hypothesis Hx : nth_error (thrs s) t = Some x.
Hypothesis Hf : fs x = [].
Hypothesis Hy : nth_error (sts s) i = Some y.
Hypothesis Hsrc : src y = Prom \/ src y = Deferred.
Hypothesis Hout : out y = None.
Hypothesis Hty : has_type (sts s) (ty y) o = true.
Hypothesis Hmv : movable_in s o = true.
Hypothesis Hg : forall z, g z = z \/ g z = set_started z.
Hypothesis Hgd : src y = Deferred -> g y = set_started y.
Hypothesis Hw : forall i', w = Some i' -> wt x = Some i'.
Let base := give false o (modify (sts s) i g).
Let s' := Sys (fst (finish base i o)) (upd_thr (thrs s) t (Thr (snd (finish base i o)) w)) (ESet i o :: hist s).
Let F (k : nat) (z : st) : st := if k =? i then set_conts [] (set_out o (mvd false o k (g z))) else mvd false o k z.

Lemma set_nt : o <> Taken.
Proof. intros ->. cbn in Hty. destruct (ty y); discriminate. Qed.
Lemma set_F k : nth_error (sts s') k = option_map (F k) (nth_error (sts s) k).
Proof.
  unfold s', base, F. cbn [sts]. rewrite nth_finish, nth_give', nth_modify. destruct (k =? i); destruct (nth_error (sts s) k); reflexivity.
Qed.
Lemma g_same z : src (g z) = src z /\ ty (g z) = ty z /\ out (g z) = out z /\ inner (g z) = inner z /\ conts (g z) = conts z /\ user (g z) = user z.
Proof. destruct (Hg z) as [-> | ->]; cbn; auto 10. Qed.
Lemma F_src k z : src (F k z) = src z /\ ty (F k z) = ty z /\ inner (F k z) = inner z.
Proof.
  unfold F. destruct (k =? i); cbn [src ty inner set_conts set_out].
  - destruct (mvd_same false o k (g z)) as (-> & -> & _ & -> & _). destruct (g_same z) as (-> & -> & _ & -> & _). auto.
  - destruct (mvd_same false o k z) as (-> & -> & _ & -> & _). auto.
Qed.
Lemma F_out k z : out (F k z) = if k =? i then Some o else out z.
Proof. unfold F. destruct (k =? i); [reflexivity|]. apply (mvd_same false o k z). Qed.
Lemma F_conts k z : conts (F k z) = if k =? i then [] else conts z.
Proof. unfold F. destruct (k =? i); [reflexivity|]. apply (mvd_same false o k z). Qed.

Lemma inv_set : inv s'.
Proof.
  assert (Hn : o <> Taken) by exact set_nt.
  assert (Hb : nth_error base i = Some (mvd false o i (g y))) by (unfold base; rewrite nth_give', nth_modify, Nat.eqb_refl, Hy; reflexivity).
  destruct (@sta_F s s' F [ESet i o] (i_sta HI) set_F eq_refl (le_n 1)) as [Hsta Hext].
  - intros e [<-|[]]. cbn. split; [|exists y; auto]. exists (F i y). rewrite set_F, Hy. split; [reflexivity|]. destruct (F_src i y) as (-> & _). split; [auto|].
    rewrite F_out, Nat.eqb_refl. discriminate.
  - intros k z Hz. destruct (F_src k z) as (-> & -> & _). rewrite F_out. repeat split; auto. destruct (k =? i); [discriminate|auto].
  - intros He k z Hz. destruct (F_src k z) as (E1 & E2 & E3). split; [|split].
    + rewrite F_out. destruct (k =? i) eqn:Ek; [right|auto]. apply Nat.eqb_eq in Ek. subst k. rewrite Hy in Hz. injection Hz as <-.
      exists o. rewrite F_out, Nat.eqb_refl. split; [reflexivity|]. rewrite E2. split; [right; eapply has_type_ext; eauto|].
      assert (R : res (hist s') i o) by (apply R_set; left; reflexivity). split; [auto|exists o; auto].
    + auto.
    + intros Hsd Es. rewrite E1 in Es. rewrite F_out. unfold F. destruct (k =? i) eqn:Ek.
      * apply Nat.eqb_eq in Ek. subst k. assert (z = y) by congruence. subst z. cbn [started set_conts set_out]. destruct (mvd_same false o i (g y)) as (_ & _ & _ & _ & -> & _). rewrite (Hgd Es). cbn. split; congruence.
      * destruct (mvd_same false o k z) as (_ & _ & _ & _ & -> & _). exact (Hsd Es).
  - constructor.
    + exact Hsta.
    + intros j. pose proof (@refs_finish base i o j _ Hb) as R. destruct (mvd_same false o i (g y)) as (_ & _ & E & _). rewrite E in R.
      destruct (g_same y) as (_ & _ & E' & _). rewrite E', Hout in R. change (is_fut None j) with 0 in R. unfold s'. cbn [sts].
      assert (R2 : refs base j + is_fut (Some o) j <= refs (sts s) j); [|pose proof (i_ref HI j); lia].
      assert (R3 : refs (modify (sts s) i g) j = refs (sts s) j) by (apply refs_same; intros z; destruct (g_same z) as (? & ? & ? & ? & ? & ?); auto).
      unfold base. destruct o as [| |[j0|]|]; cbn [give is_fut]; try lia.
      cbn in Hmv. destruct (@movable_true _ _ Hmv) as (y0 & Hy0 & Hu & _).
      assert (Hy1 : exists y1, nth_error (modify (sts s) i g) j0 = Some y1 /\ user y1 = true).
      { rewrite nth_modify, Hy0. destruct (j0 =? i); cbn; eexists; split; [reflexivity| |reflexivity|auto]. destruct (g_same y0) as (_ & _ & _ & _ & _ & ->). auto. }
      destruct Hy1 as (y1 & Hy1 & Hu1). pose proof (@refs_user _ _ _ false j Hy1) as R4. rewrite Hu1 in R4. rewrite andb_true_r, andb_false_r in R4. cbn [b2n] in R4. lia.
    + intros u. unfold s'. cbn [sts thrs]. pose proof (cs_finish base i o u) as C. pose proof (@ft_upd (thrs s) t x (Thr (snd (finish base i o)) w) u Hx) as T.
      rewrite Hf in T. cbn [fs] in T. change (fcnt u []) with 0 in T.
      assert (B : cs base u = cs (sts s) u) by (unfold base; rewrite cs_give, cs_same; [reflexivity|intros z; apply (g_same z)]).
      pose proof (i_cnt HI u) as K. enough (E : want (fst (finish base i o)) u = want (sts s) u) by lia.
      unfold want. change (fst (finish base i o)) with (sts s'). rewrite set_F. destruct (nth_error (sts s) u) as [z|] eqn:Ez; cbn; [|reflexivity].
      unfold want1. destruct (F_src u z) as (-> & _). rewrite F_out. destruct (u =? i) eqn:Eu; [|reflexivity]. apply Nat.eqb_eq in Eu. subst u.
      rewrite Hy in Ez. injection Ez as <-. destruct Hsrc as [-> | ->]; reflexivity.
    + intros j z' u Hz' Hin. rewrite set_F in Hz'. destruct (nth_error (sts s) j) as [z|] eqn:Ez; [|discriminate]. cbn in Hz'. injection Hz' as <-.
      rewrite F_conts in Hin. rewrite F_out. destruct (j =? i); [destruct Hin|]. destruct (i_conts HI _ _ Ez Hin) as (A & v & Hv & L). split; [auto|].
      exists (F u v). rewrite set_F, Hv. split; [reflexivity|]. destruct (F_src u v) as (E1 & _ & E3). unfold linked. rewrite E1, E3. exact L.
    + intros u Hfr.
      assert (G : (In u (conts y)) \/ frames (thrs s) (FLaunch u)).
      { destruct (@frames_upd s t x _ _ _ Hx Hf Hfr) as [G|G]; [left|auto]. rewrite (finish_conts _ _ _ Hb) in G. apply in_map_iff in G. destruct G as (v & Ev & G). injection Ev as ->.
        destruct (mvd_same false o i (g y)) as (_ & _ & _ & _ & _ & E & _). rewrite E in G. destruct (g_same y) as (_ & _ & _ & _ & E' & _). rewrite E' in G. exact G. }
      destruct G as [G|G].
      * destruct (i_conts HI _ _ Hy G) as (_ & v & Hv & L). exists (F u v), i, (F i y), o. rewrite !set_F, Hv, Hy. repeat split; auto.
        -- destruct (F_src u v) as (E1 & _ & E3). unfold linked. rewrite E1, E3. exact L.
        -- rewrite F_out, Nat.eqb_refl. reflexivity.
      * destruct (i_launch HI G) as (v & j & z & o' & Hv & L & Hz & Eo & Hno). exists (F u v), j, (F j z), o'. rewrite !set_F, Hv, Hz. repeat split; auto.
        -- destruct (F_src u v) as (E1 & _ & E3). unfold linked. rewrite E1, E3. exact L.
        -- rewrite F_out. destruct (j =? i) eqn:Ej; [|exact Eo]. apply Nat.eqb_eq in Ej. subst. congruence.
    + intros u j Hfr. assert (G : frames (thrs s) (FAttach u j)).
      { destruct (@frames_upd s t x _ _ _ Hx Hf Hfr) as [G|G]; [|auto]. rewrite (finish_conts _ _ _ Hb) in G. apply in_map_iff in G. destruct G as (v & Ev & G). discriminate. }
      destruct (i_attach HI G) as (v & Hv & Ev). exists (F u v). rewrite set_F, Hv. split; [reflexivity|]. destruct (F_src u v) as (_ & _ & ->). exact Ev.
    + intros j z' Hz' Et. rewrite set_F in Hz'. destruct (nth_error (sts s) j) as [z|] eqn:Ez; [|discriminate]. cbn in Hz'. injection Hz' as <-.
      rewrite F_out in Et. destruct (j =? i) eqn:Ej; [congruence|]. destruct (i_fresh HI _ Ez Et) as (A & B). split.
      * unfold F. rewrite Ej. destruct (mvd_same false o j z) as (_ & _ & _ & _ & _ & _ & [->|E]); [exact A|]. unfold mvd. rewrite E, Nat.eqb_refl. reflexivity.
      * intros k v' Hv'. rewrite set_F in Hv'. destruct (nth_error (sts s) k) as [v|] eqn:Ev; [|discriminate]. cbn in Hv'. injection Hv' as <-.
        destruct (F_src k v) as (_ & _ & ->). rewrite F_out. destruct (B _ _ Ev) as (B1 & B2). destruct (k =? i) eqn:Ek; [|auto]. split; [|intros; discriminate].
        intros E. injection E as E. rewrite E in Hmv. cbn in Hmv. destruct (@movable_true _ _ Hmv) as (y0 & Hy0 & Hu & _). congruence.
    + intros t' z i' Hz Ez. assert (G : exists t2 z2, nth_error (thrs s) t2 = Some z2 /\ wt z2 = Some i').
      { destruct (@wt_upd _ _ _ _ _ _ _ Hx Hz Ez) as [G|G]; [|exact G]. cbn in G. exists t, x. auto. }
      destruct G as (t2 & z2 & Hz2 & E2). destruct (i_wt HI _ Hz2 E2) as (v & Hv & Eu). exists (F i' v). rewrite set_F, Hv. split; [reflexivity|].
      assert (Hne : o <> Fut (Some i')). { intros ->. cbn in Hmv. destruct (@movable_true _ _ Hmv) as (_ & _ & _ & A). exact (A _ _ Hz2 E2). }
      unfold F. destruct (i' =? i); cbn [user set_conts set_out].
      * destruct (mvd_same false o i' (g v)) as (_ & _ & _ & _ & _ & _ & [->|E]); [|congruence]. destruct (g_same v) as (_ & _ & _ & _ & _ & ->). exact Eu.
      * destruct (mvd_same false o i' v) as (_ & _ & _ & _ & _ & _ & [->|E]); [exact Eu|congruence].
Qed.
End SetIt.

(** ** get() *)
Lemma refs_give_true o l j : refs (give true o l) j <= refs l j + is_fut (Some o) j.
Proof.
  destruct o as [| |[j0|]|]; cbn [give is_fut]; try lia. destruct (nth_error l j0) as [z|] eqn:E.
  - pose proof (@refs_user _ _ _ true j E) as R. rewrite andb_true_r in R. lia.
  - rewrite modify_none by exact E. lia.
Qed.
Lemma inv_get s t i y o : inv s -> nth_error (sts s) i = Some y -> out y = Some o -> movable s i = true ->
  inv (Sys (give true o (modify (sts s) i (fun z => set_user false (set_out Taken z)))) (thrs s) (EGot t i o :: hist s)).
Proof.
  intros HI Hy Ho Hm. set (s' := Sys _ _ _). set (F := fun k z => mvd true o k (if k =? i then set_user false (set_out Taken z) else z)).
  assert (HF : forall k, nth_error (sts s') k = option_map (F k) (nth_error (sts s) k)).
  { intros k. unfold s', F. cbn [sts]. rewrite nth_give', nth_modify. destruct (k =? i); destruct (nth_error (sts s) k); reflexivity. }
  assert (Fs : forall k z, src (F k z) = src z /\ ty (F k z) = ty z /\ inner (F k z) = inner z /\ conts (F k z) = conts z /\ started (F k z) = started z).
  { intros k z. unfold F. destruct (mvd_same true o k (if k =? i then set_user false (set_out Taken z) else z)) as (-> & -> & _ & -> & -> & -> & _). destruct (k =? i); cbn; auto. }
  assert (Fo : forall k z, out (F k z) = if k =? i then Some Taken else out z).
  { intros k z. unfold F. destruct (mvd_same true o k (if k =? i then set_user false (set_out Taken z) else z)) as (_ & _ & -> & _). destruct (k =? i); reflexivity. }
  destruct (@movable_true _ _ Hm) as (y' & Hy' & Hu & Hnw). rewrite Hy in Hy'. injection Hy' as <-.
  destruct (@sta_F s s' F [EGot t i o] (i_sta HI) HF eq_refl (le_n 1)) as [Hsta Hext].
  - intros e [<-|[]]. exact Logic.I.
  - intros k z Hz. destruct (Fs k z) as (-> & -> & _). rewrite Fo. repeat split; auto. destruct (k =? i); [discriminate|auto].
  - intros He k z Hz. destruct (Fs k z) as (E1 & E2 & E3 & _ & E5). split; [|split; [auto|]].
    2:{ intros Hsd Es. rewrite E1 in Es. rewrite E5, Fo. destruct (k =? i) eqn:Ek; [|exact (Hsd Es)]. apply Nat.eqb_eq in Ek. subst k. assert (z = y) by congruence. subst z.
        rewrite (Hsd Es), Ho. split; discriminate. }
    rewrite Fo. destruct (k =? i) eqn:Ek; [right|auto]. apply Nat.eqb_eq in Ek. subst k.
    rewrite Hy in Hz. injection Hz as <-. exists Taken. rewrite Fo, Nat.eqb_refl. split; [reflexivity|]. split; [auto|]. split; [congruence|].
    pose proof (a_out (i_sta HI) _ Hy) as A. rewrite Ho in A. destruct A as (_ & _ & o' & A). exists o'. apply res_mono. exact A.
  - assert (Nl : forall u x, nth_error (sts s) u = Some x -> ~ linked x i). { intros u x Hx L. pose proof (linked_user _ HI Hx L Hy). congruence. }
    constructor.
    + exact Hsta.
    + intros j. unfold s'. cbn [sts]. pose proof (refs_give_true o (modify (sts s) i (fun z => set_user false (set_out Taken z))) j) as R.
      rewrite <- (modify_modify (sts s) i (set_out Taken) (set_user false)) in *.
      pose proof (@refs_out _ _ _ Taken j Hy) as R2. rewrite Ho in R2. change (is_fut (Some Taken) j) with 0 in R2.
      assert (R3 : refs (modify (modify (sts s) i (set_out Taken)) i (set_user false)) j <= refs (modify (sts s) i (set_out Taken)) j).
      { assert (H1 : nth_error (modify (sts s) i (set_out Taken)) i = Some (set_out Taken y)) by (rewrite nth_modify, Nat.eqb_refl, Hy; reflexivity).
        pose proof (@refs_user _ _ _ false j H1) as R3. rewrite andb_false_r in R3. cbn [b2n] in R3. lia. }
      pose proof (i_ref HI j). lia.
    + intros u. unfold s'. cbn [sts thrs]. rewrite cs_give, cs_same by reflexivity. rewrite (i_cnt HI u). unfold want.
      change (give true o (modify (sts s) i (fun z => set_user false (set_out Taken z)))) with (sts s').
      rewrite HF. destruct (nth_error (sts s) u) as [z|] eqn:Ez; cbn; [|reflexivity]. unfold want1. destruct (Fs u z) as (-> & _). rewrite Fo.
      destruct (u =? i) eqn:Eu; [|reflexivity]. apply Nat.eqb_eq in Eu. subst u. rewrite Hy in Ez. injection Ez as <-. rewrite Ho. destruct (src y); reflexivity.
    + intros j z' u Hz' Hin. rewrite HF in Hz'. destruct (nth_error (sts s) j) as [z|] eqn:Ez; [|discriminate]. cbn in Hz'. injection Hz' as <-.
      destruct (Fs j z) as (_ & _ & _ & E4 & _). rewrite E4 in Hin. destruct (i_conts HI _ _ Ez Hin) as (A & v & Hv & L). rewrite Fo. destruct (j =? i) eqn:Ej.
      { apply Nat.eqb_eq in Ej. subst. exfalso. exact (Nl _ _ Hv L). }
      split; [auto|]. exists (F u v). rewrite HF, Hv. split; [reflexivity|]. destruct (Fs u v) as (E1 & _ & E3 & _). unfold linked. rewrite E1, E3. exact L.
    + intros u Hfr. destruct (i_launch HI Hfr) as (v & j & z & o' & Hv & L & Hz & Eo & Hno). exists (F u v), j, (F j z), o'. rewrite !HF, Hv, Hz. repeat split; auto.
      * destruct (Fs u v) as (E1 & _ & E3 & _). unfold linked. rewrite E1, E3. exact L.
      * rewrite Fo. destruct (j =? i) eqn:Ej; [|exact Eo]. apply Nat.eqb_eq in Ej. subst. exfalso. exact (Nl _ _ Hv L).
    + intros u j Hfr. destruct (i_attach HI Hfr) as (v & Hv & Ev). exists (F u v). rewrite HF, Hv. split; [reflexivity|]. destruct (Fs u v) as (_ & _ & -> & _). exact Ev.
    + intros j z' Hz' Et. rewrite HF in Hz'. destruct (nth_error (sts s) j) as [z|] eqn:Ez; [|discriminate]. cbn in Hz'. injection Hz' as <-.
      rewrite Fo in Et. destruct (j =? i) eqn:Ej.
      * apply Nat.eqb_eq in Ej. subst j. assert (z = y) by congruence. subst z. pose proof (@ref_user i y Hu) as Ru.
        assert (Nf : o <> Fut (Some i)). { intros E. rewrite E in Ho. pose proof (@ref_uniq _ _ _ _ _ i HI Hy Hy Ru Ru) as (_ & R1). unfold ref1 in R1. rewrite Ho, Nat.eqb_refl, Hu in R1. cbn in R1. rewrite Nat.eqb_refl in R1. cbn in R1. lia. }
        split.
        -- unfold F. rewrite Nat.eqb_refl. destruct (mvd_same true o i (set_user false (set_out Taken y))) as (_ & _ & _ & _ & _ & _ & [->|E]); [reflexivity|congruence].
        -- intros k v' Hv'. rewrite HF in Hv'. destruct (nth_error (sts s) k) as [v|] eqn:Ev; [|discriminate]. cbn in Hv'. injection Hv' as <-.
           destruct (Fs k v) as (_ & _ & -> & _). rewrite Fo. split.
           ++ destruct (k =? i) eqn:Ek; [discriminate|]. intros E. destruct (@ref_uniq _ _ _ _ _ i HI Ev Hy (@ref_fut i k v E) Ru) as (-> & _). rewrite Nat.eqb_refl in Ek. discriminate.
           ++ intros E. exfalso. exact (Nl _ _ Ev (or_intror E)).
      * destruct (i_fresh HI _ Ez Et) as (A & B). split.
        -- unfold F. rewrite Ej. destruct (mvd_same true o j z) as (_ & _ & _ & _ & _ & _ & [->|E]); [exact A|]. destruct (B _ _ Hy) as (B1 & _). congruence.
        -- intros k v' Hv'. rewrite HF in Hv'. destruct (nth_error (sts s) k) as [v|] eqn:Ev; [|discriminate]. cbn in Hv'. injection Hv' as <-.
           destruct (Fs k v) as (_ & _ & -> & _). rewrite Fo. destruct (B _ _ Ev) as (B1 & B2). destruct (k =? i); [split; [discriminate|intros; discriminate]|auto].
    + intros t' z i' Hz Ez. destruct (i_wt HI _ Hz Ez) as (v & Hv & Eu). exists (F i' v). rewrite HF, Hv. split; [reflexivity|].
      assert (Hne : i' <> i) by (intros ->; exact (Hnw _ _ Hz Ez)). apply Nat.eqb_neq in Hne. unfold F. rewrite Hne.
      unfold mvd. destruct o as [| |[j0|]|]; auto. destruct (i' =? j0); auto.
Qed.

(** ** launch_continuation makes the unwrapped state ready *)
Section Finish.
Variables (s : sys) (t : nat) (x : thr) (u : nat) (fr : list frame) (xu : st) (q : nat) (y : st) (oq o : outcome) (b : bool).
Hypothesis HI : inv s.
Hypothesis Hx : nth_error (thrs s) t = Some x.
Hypothesis Hf : fs x = FLaunch u :: fr.
Hypothesis Hu : nth_error (sts s) u = Some xu.
Hypothesis Hl : linked xu q.
Hypothesis Hy : nth_error (sts s) q = Some y.
Hypothesis Hq : out y = Some oq.
Hypothesis Hqt : oq <> Taken.
Hypothesis Hnt : o <> Taken.
Hypothesis Hty : has_type (sts s) (ty xu) o = true.
Hypothesis Hres : res (hist s) u o.
Hypothesis Hcopy : forall j, o = Fut (Some j) -> b = true /\ oq = o.
Let tk (k : nat) (z : st) : st := if b && (k =? q) then set_out Taken z else z.
Let base := if b then modify (sts s) q (set_out Taken) else sts s.
Let s' := Sys (fst (finish base u o)) (upd_thr (thrs s) t (Thr (snd (finish base u o) ++ fr) (wt x))) (hist s).
Let F (k : nat) (z : st) : st := if k =? u then set_conts [] (set_out o (tk k z)) else tk k z.

Lemma fin_base k : nth_error base k = option_map (tk k) (nth_error (sts s) k).
Proof. unfold base, tk. destruct b; cbn [andb]; [rewrite nth_modify; destruct (k =? q); destruct (nth_error (sts s) k); reflexivity|destruct (nth_error (sts s) k); reflexivity]. Qed.
Lemma fin_F k : nth_error (sts s') k = option_map (F k) (nth_error (sts s) k).
Proof. unfold s', F. cbn [sts]. rewrite nth_finish, fin_base. destruct (k =? u); destruct (nth_error (sts s) k); reflexivity. Qed.
Lemma tk_same k z : src (tk k z) = src z /\ ty (tk k z) = ty z /\ inner (tk k z) = inner z /\ conts (tk k z) = conts z /\ user (tk k z) = user z /\ started (tk k z) = started z.
Proof. unfold tk. destruct (b && (k =? q)); cbn; auto 10. Qed.
Lemma fin_src k z : src (F k z) = src z /\ ty (F k z) = ty z /\ inner (F k z) = inner z /\ user (F k z) = user z /\ started (F k z) = started z.
Proof. unfold F. destruct (tk_same k z) as (E1 & E2 & E3 & _ & E5 & E6). destruct (k =? u); cbn; auto 10. Qed.
Lemma fin_out k z : out (F k z) = if k =? u then Some o else if b && (k =? q) then Some Taken else out z.
Proof. unfold F, tk. destruct (k =? u); [reflexivity|]. destruct (b && (k =? q)); reflexivity. Qed.
Lemma fin_conts k z : conts (F k z) = if k =? u then [] else conts z.
Proof. unfold F. destruct (k =? u); [reflexivity|]. apply (tk_same k z). Qed.

Lemma inv_finish : inv s'.
Proof.
  destruct (@only_here _ _ _ _ _ HI Hx Hf) as (Hw & Hnc & Hfr). cbn [fu] in *.
  assert (Hun : out xu = None /\ exists w, src xu = Unwrapped w).
  { unfold want in Hw. rewrite Hu in Hw. unfold want1 in Hw. destruct (src xu) as [| |w]; try discriminate. destruct (out xu); [discriminate|eauto]. }
  destruct Hun as (Hun & w & Hsw).
  assert (Hqu : q <> u) by (intros ->; congruence). assert (Hqu' : (q =? u) = false) by (apply Nat.eqb_neq; auto).
  assert (Hbu : tk u xu = xu). { unfold tk. rewrite Nat.eqb_sym in Hqu'. rewrite Hqu', andb_false_r. reflexivity. }
  assert (Hb : nth_error base u = Some xu) by (rewrite fin_base, Hu; cbn; rewrite Hbu; reflexivity).
  assert (Ul : forall v xv, nth_error (sts s) v = Some xv -> linked xv q -> v = u) by (intros v xv Hv L; eapply (@linked_uniq s); eauto).
  destruct (@sta_F s s' F [] (i_sta HI) fin_F eq_refl (le_S _ _ (le_n 0))) as [Hsta Hext].
  - intros e [].
  - intros k z Hz. destruct (fin_src k z) as (-> & -> & _). rewrite fin_out. repeat split; auto. destruct (k =? u); [discriminate|]. destruct (b && (k =? q)); [discriminate|auto].
  - intros He k z Hz. destruct (fin_src k z) as (E1 & E2 & E3 & E4 & E5). split; [|split; [auto|]].
    2:{ intros Hsd Es. rewrite E1 in Es. rewrite E5, fin_out. destruct (k =? u) eqn:Ek; [apply Nat.eqb_eq in Ek; subst k; congruence|]. destruct (b && (k =? q)) eqn:Eq; [|exact (Hsd Es)].
        apply andb_prop in Eq. destruct Eq as (_ & Eq). apply Nat.eqb_eq in Eq. subst k. assert (z = y) by congruence. subst z. rewrite (Hsd Es), Hq. split; discriminate. }
    rewrite fin_out. destruct (k =? u) eqn:Ek.
    + right. apply Nat.eqb_eq in Ek. subst k. assert (z = xu) by congruence. subst z. exists o. rewrite fin_out, Nat.eqb_refl, E2. split; [reflexivity|]. split; [right; eapply has_type_ext; eauto|].
      split; [auto|exists o; auto].
    + destruct (b && (k =? q)) eqn:Eq; [right|auto]. apply andb_prop in Eq. destruct Eq as (Eb & Eq). apply Nat.eqb_eq in Eq. subst k.
      exists Taken. rewrite fin_out, Ek, Eb, Nat.eqb_refl. split; [reflexivity|]. split; [auto|]. split; [congruence|].
      pose proof (a_out (i_sta HI) _ Hy) as A. rewrite Hq in A. destruct A as (_ & _ & A). exact A.
  - constructor.
    + exact Hsta.
    + intros j. unfold s'. cbn [sts]. pose proof (@refs_finish base u o j _ Hb) as R. rewrite Hun in R. change (is_fut None j) with 0 in R.
      assert (R2 : refs base j + is_fut (Some o) j <= refs (sts s) j); [|pose proof (i_ref HI j); lia]. unfold base.
      pose proof (@refs_out _ _ _ Taken j Hy) as R2. rewrite Hq in R2. change (is_fut (Some Taken) j) with 0 in R2.
      destruct o as [| |[j0|]|] eqn:Eo; try (cbn [is_fut]; destruct b; lia). destruct (Hcopy eq_refl) as (-> & ->). lia.
    + intros v. unfold s'. cbn [sts thrs]. pose proof (cs_finish base u o v) as C. pose proof (@ft_upd (thrs s) t x (Thr (snd (finish base u o) ++ fr) (wt x)) v Hx) as T.
      rewrite Hf in T. cbn [fs] in T. rewrite fcnt_app in T. change (fcnt v (FLaunch u :: fr)) with (b2n (u =? v) + fcnt v fr) in T.
      assert (B : cs base v = cs (sts s) v) by (unfold base; destruct b; [apply cs_same; auto|reflexivity]).
      pose proof (i_cnt HI v) as K. enough (E : want (fst (finish base u o)) v + b2n (u =? v) = want (sts s) v) by lia.
      unfold want. change (fst (finish base u o)) with (sts s'). rewrite fin_F. destruct (nth_error (sts s) v) as [z|] eqn:Ez.
      * cbn. unfold want1. destruct (fin_src v z) as (-> & _). rewrite fin_out. rewrite (Nat.eqb_sym u v). destruct (v =? u) eqn:Ev.
        -- apply Nat.eqb_eq in Ev. subst v. assert (z = xu) by congruence. subst z. rewrite Hsw, Hun. reflexivity.
        -- destruct (b && (v =? q)) eqn:Eq; [|cbn; lia]. apply andb_prop in Eq. destruct Eq as (_ & Eq). apply Nat.eqb_eq in Eq. subst v. assert (z = y) by congruence. subst z. rewrite Hq. destruct (src y); reflexivity.
      * cbn. destruct (u =? v) eqn:Ev; [|reflexivity]. apply Nat.eqb_eq in Ev. congruence.
    + intros j z' v Hz' Hin. rewrite fin_F in Hz'. destruct (nth_error (sts s) j) as [z|] eqn:Ez; [|discriminate]. cbn in Hz'. injection Hz' as <-.
      rewrite fin_conts in Hin. rewrite fin_out. destruct (j =? u); [destruct Hin|]. destruct (i_conts HI _ _ Ez Hin) as (A & xv & Hv & L). split.
      * destruct (b && (j =? q)) eqn:Eq; [|exact A]. apply andb_prop in Eq. destruct Eq as (_ & Eq). apply Nat.eqb_eq in Eq. subst j. congruence.
      * exists (F v xv). rewrite fin_F, Hv. split; [reflexivity|]. destruct (fin_src v xv) as (E1 & _ & E3 & _). unfold linked. rewrite E1, E3. exact L.
    + intros v Hv0. destruct (Hfr _ _ _ Hv0) as [G|(G & Gn)].
      * rewrite (finish_conts _ _ _ Hb) in G. apply in_map_iff in G. destruct G as (v' & Ev & G). injection Ev as ->.
        destruct (i_conts HI _ _ Hu G) as (_ & xv & Hv & L). exists (F v xv), u, (F u xu), o. rewrite !fin_F, Hv, Hu. repeat split; auto.
        -- destruct (fin_src v xv) as (E1 & _ & E3 & _). unfold linked. rewrite E1, E3. exact L.
        -- rewrite fin_out, Nat.eqb_refl. reflexivity.
      * destruct (i_launch HI G) as (xv & j & z & o' & Hv & L & Hz & Eo & Hno). exists (F v xv), j, (F j z), o'. rewrite !fin_F, Hv, Hz. repeat split; auto.
        -- destruct (fin_src v xv) as (E1 & _ & E3 & _). unfold linked. rewrite E1, E3. exact L.
        -- rewrite fin_out. destruct (j =? u) eqn:Ej; [apply Nat.eqb_eq in Ej; subst; congruence|].
           destruct (b && (j =? q)) eqn:Eq; [|exact Eo]. apply andb_prop in Eq. destruct Eq as (_ & Eq). apply Nat.eqb_eq in Eq. subst j. exfalso. apply Gn. cbn. exact (Ul _ _ Hv L).
    + intros v j Hv0. assert (G : frames (thrs s) (FAttach v j)).
      { destruct (Hfr _ _ _ Hv0) as [G|(G & _)]; [|exact G]. rewrite (finish_conts _ _ _ Hb) in G. apply in_map_iff in G. destruct G as (v' & Ev & G). discriminate. }
      destruct (i_attach HI G) as (xv & Hv & Ev). exists (F v xv). rewrite fin_F, Hv. split; [reflexivity|]. destruct (fin_src v xv) as (_ & _ & -> & _). exact Ev.
    + intros j z' Hz' Et. rewrite fin_F in Hz'. destruct (nth_error (sts s) j) as [z|] eqn:Ez; [|discriminate]. cbn in Hz'. injection Hz' as <-.
      rewrite fin_out in Et. destruct (j =? u) eqn:Ej; [congruence|]. destruct (fin_src j z) as (_ & _ & _ & -> & _).
      destruct (b && (j =? q)) eqn:Eq.
      * apply andb_prop in Eq. destruct Eq as (Eb & Eq). apply Nat.eqb_eq in Eq. subst j. assert (z = y) by congruence. subst z.
        split; [exact (linked_user _ HI Hu Hl Hy)|]. intros k v' Hv'. rewrite fin_F in Hv'. destruct (nth_error (sts s) k) as [v|] eqn:Ev; [|discriminate]. cbn in Hv'. injection Hv' as <-.
        destruct (fin_src k v) as (_ & _ & -> & _). rewrite fin_out. destruct (k =? u) eqn:Ek; split.
        -- intros E. injection E as E. destruct (Hcopy E) as (_ & E2). subst oq. rewrite E in Hq.
           destruct (@ref_uniq _ _ _ _ _ q HI Hu Hy (@ref_lnk q u xu Hl) (@ref_fut q q y Hq)) as (E3 & _). congruence.
        -- intros; discriminate.
        -- destruct (b && (k =? q)); [discriminate|]. intros E. destruct (@ref_uniq _ _ _ _ _ q HI Hu Ev (@ref_lnk q u xu Hl) (@ref_fut q k v E)) as (E3 & _). subst k. rewrite Nat.eqb_refl in Ek. discriminate.
        -- intros E. pose proof (Ul _ _ Ev (or_intror E)) as E3. subst k. rewrite Nat.eqb_refl in Ek. discriminate.
      * destruct (i_fresh HI _ Ez Et) as (A & B). split; [exact A|]. intros k v' Hv'. rewrite fin_F in Hv'. destruct (nth_error (sts s) k) as [v|] eqn:Ev; [|discriminate]. cbn in Hv'. injection Hv' as <-.
        destruct (fin_src k v) as (_ & _ & -> & _). rewrite fin_out. destruct (B _ _ Ev) as (B1 & B2). destruct (k =? u) eqn:Ek; split.
        -- intros E. injection E as E. destruct (Hcopy E) as (_ & E2). subst oq. destruct (B _ _ Hy) as (B3 & _). congruence.
        -- intros; discriminate.
        -- destruct (b && (k =? q)); [discriminate|auto].
        -- intros E. destruct (b && (k =? q)); [discriminate|auto].
    + intros t' z i' Hz Ez. assert (G : exists t2 z2, nth_error (thrs s) t2 = Some z2 /\ wt z2 = Some i').
      { destruct (@wt_upd _ _ _ _ _ _ _ Hx Hz Ez) as [G|G]; [|exact G]. cbn in G. exists t, x. auto. }
      destruct G as (t2 & z2 & Hz2 & E2). destruct (i_wt HI _ Hz2 E2) as (v & Hv & Eu). exists (F i' v). rewrite fin_F, Hv. split; [reflexivity|].
      destruct (fin_src i' v) as (_ & _ & _ & -> & _). exact Eu.
Qed.
End Finish.

(** ** launch_continuation takes the inner future *)
Section Inner.
Variables (s : sys) (t : nat) (x : thr) (u : nat) (fr : list frame) (xu : st) (w : nat) (y : st) (j : nat).
Hypothesis HI : inv s.
Hypothesis Hx : nth_error (thrs s) t = Some x.
Hypothesis Hf : fs x = FLaunch u :: fr.
Hypothesis Hu : nth_error (sts s) u = Some xu.
Hypothesis Hs : src xu = Unwrapped w.
Hypothesis Hi : inner xu = None.
Hypothesis Hy : nth_error (sts s) w = Some y.
Hypothesis Hq : out y = Some (Fut (Some j)).
Let s' := Sys (modify (modify (sts s) w (set_out Taken)) u (set_inner j)) (upd_thr (thrs s) t (Thr ([FAttach u j] ++ fr) (wt x))) (hist s).
Let F (k : nat) (z : st) : st := if k =? u then set_inner j z else if k =? w then set_out Taken z else z.

Lemma inv_inner : inv s'.
Proof.
  destruct (@only_here _ _ _ _ _ HI Hx Hf) as (Hw & Hnc & Hfr). cbn [fu] in *.
  assert (Hun : out xu = None) by (unfold want in Hw; rewrite Hu in Hw; unfold want1 in Hw; rewrite Hs in Hw; destruct (out xu); [discriminate|auto]).
  assert (Hl : linked xu w) by (left; auto).
  assert (Hwu : w <> u) by (intros ->; congruence). assert (Hwu1 : (w =? u) = false) by (apply Nat.eqb_neq; auto).
  assert (HF : forall k, nth_error (sts s') k = option_map (F k) (nth_error (sts s) k)).
  { intros k. unfold s', F. cbn [sts]. rewrite !nth_modify. destruct (k =? u) eqn:Ek; [|destruct (k =? w); destruct (nth_error (sts s) k); reflexivity].
    apply Nat.eqb_eq in Ek. subst k. rewrite Nat.eqb_sym in Hwu1. rewrite Hwu1. destruct (nth_error (sts s) u); reflexivity. }
  assert (Fs : forall k z, src (F k z) = src z /\ ty (F k z) = ty z /\ conts (F k z) = conts z /\ started (F k z) = started z /\ user (F k z) = user z).
  { intros k z. unfold F. destruct (k =? u); [cbn; auto|]. destruct (k =? w); cbn; auto 10. }
  assert (Fi : forall k z, inner (F k z) = if k =? u then Some j else inner z). { intros k z. unfold F. destruct (k =? u); [reflexivity|]. destruct (k =? w); reflexivity. }
  assert (Fo : forall k z, out (F k z) = if k =? u then out z else if k =? w then Some Taken else out z). { intros k z. unfold F. destruct (k =? u); [reflexivity|]. destruct (k =? w); reflexivity. }
  assert (Fl : forall k z v, k <> u -> linked z v -> linked (F k z) v). { intros k z v Hk L. unfold linked. destruct (Fs k z) as (-> & _). rewrite Fi. apply Nat.eqb_neq in Hk. rewrite Hk. exact L. }
  assert (Ul : forall v xv, nth_error (sts s) v = Some xv -> linked xv w -> v = u) by (intros v xv Hv L; eapply (@linked_uniq s); eauto).
  pose proof (a_out (i_sta HI) _ Hy) as Ao. rewrite Hq in Ao. destruct Ao as ([Ao|Ao] & Ar & Ae); [discriminate|]. specialize (Ar ltac:(discriminate)).
  destruct (@sta_F s s' F [] (i_sta HI) HF eq_refl (le_S _ _ (le_n 0))) as [Hsta Hext].
  - intros e [].
  - intros k z Hz. destruct (Fs k z) as (-> & -> & _). rewrite Fo. repeat split; auto. destruct (k =? u); [auto|]. destruct (k =? w); [discriminate|auto].
  - intros He k z Hz. destruct (Fs k z) as (E1 & E2 & _ & E4 & _). split; [|split].
    3:{ intros Hsd Es. rewrite E1 in Es. rewrite E4, Fo. destruct (k =? u); [exact (Hsd Es)|]. destruct (k =? w) eqn:Ew; [|exact (Hsd Es)].
        apply Nat.eqb_eq in Ew. subst k. assert (z = y) by congruence. subst z. rewrite (Hsd Es), Hq. split; discriminate. }
    + rewrite Fo. destruct (k =? u) eqn:Ek; [auto|]. destruct (k =? w) eqn:Ew; [right|auto]. exists Taken. rewrite Fo, Ek, Ew. split; [reflexivity|]. split; [auto|]. split; [congruence|].
      apply Nat.eqb_eq in Ew. subst k. exact Ae.
    + rewrite Fi. destruct (k =? u) eqn:Ek; [right|auto]. apply Nat.eqb_eq in Ek. subst k. assert (z = xu) by congruence. subst z. intros j' Ej. rewrite Fi, Nat.eqb_refl in Ej. injection Ej as <-.
      cbn in Ao. destruct (ty y) as [|m] eqn:Em; [discriminate|]. destruct (nth_error (sts s) j) as [z|] eqn:Ez; [|discriminate]. apply Nat.eqb_eq in Ao.
      pose proof (a_src (i_sta HI) _ Hu) as A. rewrite Hs in A. destruct A as (_ & y' & Hy' & Ey). assert (y' = y) by congruence. subst y'.
      exists w, (F j z). rewrite HF, Ez. destruct (Fs j z) as (_ & E6 & _). repeat split; [congruence|exact Ar|congruence].
  - constructor.
    + exact Hsta.
    + intros v. unfold s'. cbn [sts]. pose proof (@refs_out _ _ _ Taken v Hy) as R. rewrite Hq in R. change (is_fut (Some Taken) v) with 0 in R. cbn [is_fut] in R.
      assert (H1 : nth_error (modify (sts s) w (set_out Taken)) u = Some xu). { rewrite nth_modify, Nat.eqb_sym, Hwu1. exact Hu. }
      pose proof (@refs_inner _ _ _ j v H1) as R2. rewrite Hi in R2. change (is_in None v) with 0 in R2. pose proof (i_ref HI v). lia.
    + intros v. unfold s'. cbn [sts thrs]. rewrite !cs_same by reflexivity. pose proof (@ft_upd (thrs s) t x (Thr ([FAttach u j] ++ fr) (wt x)) v Hx) as T.
      rewrite Hf in T. cbn [fs app] in T. unfold fcnt at 1 2 in T. cbn [map fu] in T. pose proof (i_cnt HI v) as K. enough (E : want (sts s') v = want (sts s) v) by (unfold s' in E; cbn [sts] in E; cbn [app]; lia).
      unfold want. rewrite HF. destruct (nth_error (sts s) v) as [z|] eqn:Ez; [|reflexivity]. cbn. unfold want1. destruct (Fs v z) as (-> & _). rewrite Fo.
      destruct (v =? u); [reflexivity|]. destruct (v =? w) eqn:Ew; [|reflexivity]. apply Nat.eqb_eq in Ew. subst v. assert (z = y) by congruence. subst z. rewrite Hq. destruct (src y); reflexivity.
    + intros k z' v Hz' Hin. rewrite HF in Hz'. destruct (nth_error (sts s) k) as [z|] eqn:Ez; [|discriminate]. cbn in Hz'. injection Hz' as <-.
      destruct (Fs k z) as (_ & _ & E3 & _). rewrite E3 in Hin. destruct (i_conts HI _ _ Ez Hin) as (A & xv & Hv & L). split.
      * rewrite Fo. destruct (k =? u); [exact A|]. destruct (k =? w) eqn:Ew; [|exact A]. apply Nat.eqb_eq in Ew. subst k. congruence.
      * exists (F v xv). rewrite HF, Hv. split; [reflexivity|]. apply Fl; [|exact L]. intros ->. exact (Hnc _ _ Ez Hin).
    + intros v Hv0. destruct (Hfr _ _ _ Hv0) as [G|(G & Gn)].
      * destruct G as [G|[]]. discriminate.
      * cbn [fu] in Gn. destruct (i_launch HI G) as (xv & k & z & o' & Hv & L & Hz & Eo & Hno). exists (F v xv), k, (F k z), o'. rewrite !HF, Hv, Hz. repeat split; auto.
        rewrite Fo. destruct (k =? u); [exact Eo|]. destruct (k =? w) eqn:Ew; [|exact Eo]. apply Nat.eqb_eq in Ew. subst k. exfalso. exact (Gn (Ul _ _ Hv L)).
    + intros v k Hv0. destruct (Hfr _ _ _ Hv0) as [G|(G & Gn)].
      * destruct G as [G|[]]. injection G as <- <-. exists (F u xu). rewrite HF, Hu. split; [reflexivity|]. rewrite Fi, Nat.eqb_refl. reflexivity.
      * cbn [fu] in Gn. destruct (i_attach HI G) as (xv & Hv & Ev). exists (F v xv). rewrite HF, Hv. split; [reflexivity|]. rewrite Fi. apply Nat.eqb_neq in Gn. rewrite Gn. exact Ev.
    + intros k z' Hz' Et. rewrite HF in Hz'. destruct (nth_error (sts s) k) as [z|] eqn:Ez; [|discriminate]. cbn in Hz'. injection Hz' as <-.
      destruct (Fs k z) as (_ & _ & _ & _ & ->). rewrite Fo in Et.
      assert (Old : out z = Some Taken -> user z = false /\ (forall i v, nth_error (sts s') i = Some v -> out v <> Some (Fut (Some k)) /\ (inner v = Some k -> out v <> None))).
      { intros Et'. destruct (i_fresh HI _ Ez Et') as (A & B). split; [exact A|]. intros i v' Hv'. rewrite HF in Hv'. destruct (nth_error (sts s) i) as [v|] eqn:Ev; [|discriminate]. cbn in Hv'. injection Hv' as <-.
        destruct (B _ _ Ev) as (B1 & B2). rewrite Fo, Fi. destruct (i =? u) eqn:Ei.
        - split; [exact B1|]. intros E. injection E as <-. exfalso. destruct (B _ _ Hy) as (B3 & _). congruence.
        - destruct (i =? w); [split; [discriminate|intros; discriminate]|auto]. }
      destruct (k =? u) eqn:Ek; [auto|]. destruct (k =? w) eqn:Ew; [|auto]. clear Old. apply Nat.eqb_eq in Ew. subst k. assert (z = y) by congruence. subst z.
      split; [exact (linked_user _ HI Hu Hl Hy)|]. intros k v' Hv'. rewrite HF in Hv'. destruct (nth_error (sts s) k) as [v|] eqn:Ev; [|discriminate]. cbn in Hv'. injection Hv' as <-.
      rewrite Fo, Fi. split.
      * intros E. assert (E' : out v = Some (Fut (Some w))) by (destruct (k =? u); [exact E|destruct (k =? w); [discriminate|exact E]]).
        destruct (@ref_uniq _ _ _ _ _ w HI Hu Ev (@ref_lnk w u xu Hl) (@ref_fut w k v E')) as (E3 & _). subst k. congruence.
      * destruct (k =? u) eqn:Eku.
        -- intros E. injection E as E. subst j. destruct (@ref_uniq _ _ _ _ _ w HI Hu Hy (@ref_lnk w u xu Hl) (@ref_fut w w y Hq)) as (E3 & _). congruence.
        -- intros E. pose proof (Ul _ _ Ev (or_intror E)). subst k. rewrite Nat.eqb_refl in Eku. discriminate.
    + intros t' z i' Hz Ez. assert (G : exists t2 z2, nth_error (thrs s) t2 = Some z2 /\ wt z2 = Some i').
      { destruct (@wt_upd _ _ _ _ _ _ _ Hx Hz Ez) as [G|G]; [|exact G]. cbn in G. exists t, x. auto. }
      destruct G as (t2 & z2 & Hz2 & E2). destruct (i_wt HI _ Hz2 E2) as (v & Hv & Eu). exists (F i' v). rewrite HF, Hv. split; [reflexivity|].
      destruct (Fs i' v) as (_ & _ & _ & _ & ->). exact Eu.
Qed.
End Inner.

(** ** set_continuation_ptr on the inner future *)
Lemma attach_conts l u j y : nth_error l j = Some y -> snd (attach l u j) = match out y with Some _ => map FLaunch (conts y ++ [u]) | None => [] end.
Proof. unfold attach. intros ->. destruct (out y); reflexivity. Qed.
Lemma attached_same u z : src (attached u z) = src z /\ ty (attached u z) = ty z /\ inner (attached u z) = inner z /\ out (attached u z) = out z /\ user (attached u z) = user z /\ started (attached u z) = started z.
Proof. unfold attached. cbn. auto 10. Qed.

Section Attach.
Variables (s : sys) (t : nat) (x : thr) (u : nat) (fr : list frame) (xu : st) (j : nat) (y : st).
Hypothesis HI : inv s.
Hypothesis Hx : nth_error (thrs s) t = Some x.
Hypothesis Hf : fs x = FAttach u j :: fr.
Hypothesis Hu : nth_error (sts s) u = Some xu.
Hypothesis Hi : inner xu = Some j.
Hypothesis Hy : nth_error (sts s) j = Some y.
Let s' := Sys (fst (attach (sts s) u j)) (upd_thr (thrs s) t (Thr (snd (attach (sts s) u j) ++ fr) (wt x))) (hist s).
Let F (k : nat) (z : st) : st := if k =? j then attached u z else z.

Lemma inv_attach : inv s'.
Proof.
  destruct (@only_here _ _ _ _ _ HI Hx Hf) as (Hw & Hnc & Hfr). cbn [fu] in *.
  assert (HF : forall k, nth_error (sts s') k = option_map (F k) (nth_error (sts s) k)).
  { intros k. unfold s', F. cbn [sts]. rewrite nth_attach. destruct (k =? j); destruct (nth_error (sts s) k); reflexivity. }
  assert (Fs : forall k z, src (F k z) = src z /\ ty (F k z) = ty z /\ inner (F k z) = inner z /\ out (F k z) = out z /\ user (F k z) = user z /\ started (F k z) = started z).
  { intros k z. unfold F. destruct (k =? j); [apply attached_same|auto 10]. }
  assert (Fl : forall k z v, linked z v -> linked (F k z) v). { intros k z v L. unfold linked. destruct (Fs k z) as (-> & _ & -> & _). exact L. }
  assert (Hun : out xu = None) by (unfold want in Hw; rewrite Hu in Hw; unfold want1 in Hw; destruct (src xu); try discriminate; destruct (out xu); [discriminate|auto]).
  assert (Hyt : out y <> Some Taken). { intros E. destruct (i_fresh HI _ Hy E) as (_ & B). destruct (B _ _ Hu) as (_ & B2). exact (B2 Hi Hun). }
  destruct (@sta_F s s' F [] (i_sta HI) HF eq_refl (le_S _ _ (le_n 0))) as [Hsta Hext].
  - intros e [].
  - intros k z Hz. destruct (Fs k z) as (-> & -> & _ & -> & _). auto.
  - intros He k z Hz. destruct (Fs k z) as (E1 & _ & E3 & E4 & _ & E6). unfold sd_ok. rewrite E1, E3, E4, E6. auto.
  - constructor.
    + exact Hsta.
    + intros v. unfold s'. cbn [sts]. rewrite refs_attach. apply (i_ref HI).
    + intros v. unfold s'. cbn [sts thrs]. pose proof (@cs_attach _ u j v _ Hy) as C. pose proof (@ft_upd (thrs s) t x (Thr (snd (attach (sts s) u j) ++ fr) (wt x)) v Hx) as T.
      rewrite Hf in T. cbn [fs] in T. rewrite fcnt_app in T. change (fcnt v (FAttach u j :: fr)) with (b2n (u =? v) + fcnt v fr) in T. pose proof (i_cnt HI v) as K.
      enough (E : want (sts s') v = want (sts s) v) by (unfold s' in E; cbn [sts] in E; lia).
      unfold want. rewrite HF. destruct (nth_error (sts s) v) as [z|]; [|reflexivity]. cbn. unfold want1. destruct (Fs v z) as (-> & _ & _ & -> & _). reflexivity.
    + intros k z' v Hz' Hin. rewrite HF in Hz'. destruct (nth_error (sts s) k) as [z|] eqn:Ez; [|discriminate]. cbn in Hz'. injection Hz' as <-.
      destruct (Fs k z) as (_ & _ & _ & -> & _).
      assert (G : In v (conts z) \/ (k = j /\ v = u /\ out z = None)).
      { unfold F in Hin. destruct (k =? j) eqn:Ek; [|auto]. apply Nat.eqb_eq in Ek. subst k. unfold attached in Hin. cbn in Hin. destruct (out z); [destruct Hin|]. apply in_app_or in Hin. destruct Hin as [Hin|[<-|[]]]; auto. }
      destruct G as [G|(-> & -> & G)].
      * destruct (i_conts HI _ _ Ez G) as (A & xv & Hv & L). split; [exact A|]. exists (F v xv). rewrite HF, Hv. split; [reflexivity|auto].
      * split; [exact G|]. exists (F u xu). rewrite HF, Hu. split; [reflexivity|]. apply Fl. right. exact Hi.
    + intros v Hv0. destruct (Hfr _ _ _ Hv0) as [G|(G & Gn)].
      * rewrite (attach_conts _ _ _ Hy) in G. destruct (out y) as [o|] eqn:Eo; [|destruct G]. apply in_map_iff in G. destruct G as (v' & Ev & G). injection Ev as ->. apply in_app_or in G.
        destruct G as [G|[<-|[]]]; [destruct (i_conts HI _ _ Hy G); congruence|]. exists (F u xu), j, (F j y), o. rewrite !HF, Hu, Hy. repeat split; auto.
        -- apply Fl. right. exact Hi.
        -- destruct (Fs j y) as (_ & _ & _ & -> & _). exact Eo.
        -- congruence.
      * destruct (i_launch HI G) as (xv & k & z & o' & Hv & L & Hz & Eo & Hno). exists (F v xv), k, (F k z), o'. rewrite !HF, Hv, Hz. repeat split; auto.
        destruct (Fs k z) as (_ & _ & _ & -> & _). exact Eo.
    + intros v k Hv0. assert (G : frames (thrs s) (FAttach v k)).
      { destruct (Hfr _ _ _ Hv0) as [G|(G & _)]; [|exact G]. rewrite (attach_conts _ _ _ Hy) in G. destruct (out y); [|destruct G]. apply in_map_iff in G. destruct G as (v' & Ev & _). discriminate. }
      destruct (i_attach HI G) as (xv & Hv & Ev). exists (F v xv). rewrite HF, Hv. split; [reflexivity|]. destruct (Fs v xv) as (_ & _ & -> & _). exact Ev.
    + intros k z' Hz' Et. rewrite HF in Hz'. destruct (nth_error (sts s) k) as [z|] eqn:Ez; [|discriminate]. cbn in Hz'. injection Hz' as <-.
      destruct (Fs k z) as (_ & _ & _ & E4 & -> & _). rewrite E4 in Et. destruct (i_fresh HI _ Ez Et) as (A & B). split; [exact A|].
      intros i v' Hv'. rewrite HF in Hv'. destruct (nth_error (sts s) i) as [v|] eqn:Ev; [|discriminate]. cbn in Hv'. injection Hv' as <-. destruct (Fs i v) as (_ & _ & -> & -> & _). exact (B _ _ Ev).
    + intros t' z i' Hz Ez. assert (G : exists t2 z2, nth_error (thrs s) t2 = Some z2 /\ wt z2 = Some i').
      { destruct (@wt_upd _ _ _ _ _ _ _ Hx Hz Ez) as [G|G]; [|exact G]. cbn in G. exists t, x. auto. }
      destruct G as (t2 & z2 & Hz2 & E2). destruct (i_wt HI _ Hz2 E2) as (v & Hv & Eu). exists (F i' v). rewrite HF, Hv. split; [reflexivity|].
      destruct (Fs i' v) as (_ & _ & _ & _ & -> & _). exact Eu.
Qed.
End Attach.

(** ** New states *)
Lemma nth_snoc (A : Type) (l : list A) a k : nth_error (l ++ [a]) k = if k =? length l then Some a else nth_error l k.
Proof.
  destruct (k =? length l) eqn:E.
  - apply Nat.eqb_eq in E. subst. rewrite nth_error_app2 by lia. rewrite Nat.sub_diag. reflexivity.
  - apply Nat.eqb_neq in E. destruct (Nat.lt_ge_cases k (length l)) as [H|H]; [apply nth_error_app1; exact H|].
    rewrite nth_error_app2 by lia. destruct (k - length l) as [|m] eqn:Em; [lia|]. cbn. destruct m; symmetry; apply nth_error_None; lia.
Qed.
Lemma nth_lt (A : Type) (l : list A) k x : nth_error l k = Some x -> (k =? length l) = false.
Proof. intros H. apply Nat.eqb_neq. assert (k < length l) by (apply nth_error_Some; congruence). lia. Qed.
Lemma refs_oob s : inv s -> refs (sts s) (length (sts s)) = 0.
Proof.
  intros HI. apply sumi_zero. intros i x Hx. cbn [plus]. unfold ref1. rewrite (nth_lt _ _ Hx). cbn [andb b2n].
  assert (A : forall j y, nth_error (sts s) j = Some y -> b2n (j =? length (sts s)) = 0) by (intros j y Hy; rewrite (nth_lt _ _ Hy); reflexivity).
  pose proof (a_src (i_sta HI) _ Hx) as S1. pose proof (a_out (i_sta HI) _ Hx) as S2. pose proof (fun j => @a_inner _ (i_sta HI) _ _ j Hx) as S3.
  assert (E1 : is_src (src x) (length (sts s)) = 0). { destruct (src x) as [| |w]; cbn; auto. destruct S1 as (_ & y & Hy & _). eauto. }
  assert (E2 : is_in (inner x) (length (sts s)) = 0). { destruct (inner x) as [j|]; cbn; auto. destruct (S3 j eq_refl) as (w & y & _ & _ & Hy & _). eauto. }
  assert (E3 : is_fut (out x) (length (sts s)) = 0).
  { destruct (out x) as [[| |[j|]|]|]; cbn; auto. destruct S2 as ([S2|S2] & _); [discriminate|]. cbn in S2. destruct (ty x); [discriminate|]. destruct (nth_error (sts s) j) eqn:Ej; [eauto|discriminate]. }
  lia.
Qed.

Lemma inv_new s k (d : bool) : inv s -> inv (Sys (sts s ++ [St k (if d then Deferred else Prom) true false None None []]) (thrs s) (ENew (length (sts s)) k d :: hist s)).
Proof.
  intros HI. set (new := St k (if d then Deferred else Prom) true false None None []). set (s' := Sys _ _ _). set (n := length (sts s)).
  assert (HF : forall i, nth_error (sts s') i = if i =? n then Some new else nth_error (sts s) i) by (intros i; apply nth_snoc).
  assert (HL : forall i x, nth_error (sts s) i = Some x -> nth_error (sts s') i = Some x) by (intros i x Hx; rewrite HF; unfold n; rewrite (nth_lt _ _ Hx); exact Hx).
  assert (Hn : src new = Prom \/ src new = Deferred) by (unfold new; cbn; destruct d; auto).
  constructor.
  - apply (@sta_pres s s' [ENew n k d] (i_sta HI)).
    + intros j y Hy. exists y. auto.
    + reflexivity.
    + cbn. lia.
    + intros e [<-|[]]. cbn. exists new. rewrite HF, Nat.eqb_refl. auto.
    + intros i x' Hx'. rewrite HF in Hx'. destruct (i =? n) eqn:Ei.
      * right. injection Hx' as <-. apply Nat.eqb_eq in Ei. subst i. repeat split; auto. unfold src_ok, new. cbn. destruct d; left; reflexivity.
      * left. exists x'. auto 12.
  - intros j. unfold s'. cbn [sts]. rewrite refs_app. fold n. unfold ref1, new. cbn [user src inner out is_in is_fut]. rewrite andb_true_r.
    replace (is_src (if d then Deferred else Prom) j) with 0 by (destruct d; reflexivity). pose proof (i_ref HI j) as R. destruct (n =? j) eqn:Ej; [|cbn; lia].
    apply Nat.eqb_eq in Ej. subst j. unfold n. rewrite (refs_oob HI). cbn. lia.
  - intros u. unfold s'. cbn [sts thrs]. unfold cs. rewrite sumi_app. cbn. rewrite !Nat.add_0_r. fold (cs (sts s) u). rewrite (i_cnt HI u). unfold want.
    change (sts s ++ [new]) with (sts s'). rewrite HF. destruct (u =? n) eqn:Eu; [|reflexivity]. apply Nat.eqb_eq in Eu. subst u.
    assert (E : nth_error (sts s) n = None) by (apply nth_error_None; unfold n; lia). rewrite E. unfold want1, new. cbn. destruct d; reflexivity.
  - intros j y u Hy Hin. rewrite HF in Hy. destruct (j =? n); [injection Hy as <-; destruct Hin|]. destruct (i_conts HI _ _ Hy Hin) as (A & x & Hx & L). eauto.
  - intros u Hfr. destruct (i_launch HI Hfr) as (x & j & y & o & Hx & L & Hy & Eo & Hno). exists x, j, y, o. auto.
  - intros u j Hfr. destruct (i_attach HI Hfr) as (x & Hx & Ei). eauto.
  - intros j y Hy Et. rewrite HF in Hy. destruct (j =? n); [injection Hy as <-; discriminate|]. destruct (i_fresh HI _ Hy Et) as (A & B). split; [exact A|].
    intros i x Hx. rewrite HF in Hx. destruct (i =? n); [injection Hx as <-; split; [discriminate|intros E; discriminate E]|eauto].
  - intros t z i Hz Ez. destruct (i_wt HI _ Hz Ez) as (x & Hx & Eu). eauto.
Qed.

Section UnwrapIt.
Variables (s : sys) (t : nat) (x : thr) (i k : nat) (y : st).
Hypothesis HI : inv s.
Hypothesis Hx : nth_error (thrs s) t = Some x.
Hypothesis Hf : fs x = [].
Hypothesis Hy : nth_error (sts s) i = Some y.
Hypothesis Hty : ty y = S k.
Hypothesis Hm : movable s i = true.
Let n := length (sts s).
Let new := St k (Unwrapped i) true false None None [].
Let base := modify (sts s) i (set_user false) ++ [new].
Let s' := Sys (fst (attach base n i)) (upd_thr (thrs s) t (Thr (snd (attach base n i)) None)) (EUnwrap i n :: hist s).
Let F (j : nat) (z : st) : st := if j =? i then attached n (set_user false z) else z.

Lemma inv_unwrap : inv s'.
Proof.
  destruct (@movable_true _ _ Hm) as (y' & Hy' & Hu & Hnw). assert (y' = y) by congruence. subst y'. clear Hy'.
  assert (Hin0 : (i =? n) = false) by exact (nth_lt _ _ Hy).
  assert (HB : forall j, nth_error base j = if j =? n then Some new else nth_error (modify (sts s) i (set_user false)) j).
  { intros j. unfold base. rewrite nth_snoc, modify_length. reflexivity. }
  assert (HF : forall j, nth_error (sts s') j = if j =? n then Some new else option_map (F j) (nth_error (sts s) j)).
  { intros j. unfold s', F. cbn [sts]. rewrite nth_attach, HB, nth_modify. destruct (j =? n) eqn:En.
    - apply Nat.eqb_eq in En. subst j. rewrite Nat.eqb_sym in Hin0. rewrite Hin0. reflexivity.
    - destruct (j =? i); destruct (nth_error (sts s) j); reflexivity. }
  assert (HL : forall j z, nth_error (sts s) j = Some z -> nth_error (sts s') j = Some (F j z)) by (intros j z Hz; rewrite HF; unfold n; rewrite (nth_lt _ _ Hz), Hz; reflexivity).
  assert (Fs : forall j z, src (F j z) = src z /\ ty (F j z) = ty z /\ inner (F j z) = inner z /\ out (F j z) = out z /\ started (F j z) = started z).
  { intros j z. unfold F. destruct (j =? i); [|auto 10]. destruct (attached_same n (set_user false z)) as (-> & -> & -> & -> & _ & ->). auto. }
  assert (Fl : forall j z v, linked z v -> linked (F j z) v). { intros j z v L. unfold linked. destruct (Fs j z) as (-> & _ & -> & _). exact L. }
  assert (Hbi : nth_error base i = Some (set_user false y)) by (rewrite HB, Hin0, nth_modify, Nat.eqb_refl, Hy; reflexivity).
  assert (Nl : forall v xv, nth_error (sts s) v = Some xv -> ~ linked xv i). { intros v xv Hv L. pose proof (linked_user _ HI Hv L Hy). congruence. }
  assert (Nc : conts y = []). { destruct (conts y) as [|v l] eqn:Ec; [reflexivity|exfalso]. destruct (i_conts HI i v Hy) as (_ & xv & Hv & L); [rewrite Ec; left; reflexivity|]. exact (Nl _ _ Hv L). }
  assert (Nt : out y <> Some Taken). { intros E. destruct (i_fresh HI _ Hy E) as (A & _). congruence. }
  constructor.
  - apply (@sta_pres s s' [EUnwrap i n] (i_sta HI)).
    + intros j z Hz. exists (F j z). destruct (Fs j z) as (E1 & E2 & _ & E4 & _). rewrite E1, E2, E4. auto.
    + reflexivity.
    + cbn. lia.
    + intros e [<-|[]]. cbn. exists new. rewrite HF, Nat.eqb_refl. auto.
    + intros j x' Hx'. rewrite HF in Hx'. destruct (j =? n) eqn:Ej.
      * right. injection Hx' as <-. apply Nat.eqb_eq in Ej. subst j. split; [|auto]. cbn. split; [left; reflexivity|]. exists (F i y). split; [exact (HL _ _ Hy)|].
        destruct (Fs i y) as (_ & -> & _). exact Hty.
      * left. destruct (nth_error (sts s) j) as [z|]; [|discriminate]. cbn in Hx'. injection Hx' as <-. exists z. destruct (Fs j z) as (E1 & E2 & E3 & E4 & E5). unfold sd_ok. rewrite E1, E2, E3, E4, E5. auto 12.
  - intros j. unfold s'. cbn [sts]. rewrite refs_attach. unfold base. rewrite refs_app, modify_length. fold n. unfold ref1, new. cbn [user src inner out is_in is_fut is_src]. rewrite andb_true_r.
    pose proof (@refs_user _ _ _ false j Hy) as R. rewrite Hu, andb_true_r, andb_false_r in R. cbn [b2n] in R. pose proof (i_ref HI j) as R1.
    destruct (n =? j) eqn:Ej; [|cbn [b2n]; lia]. apply Nat.eqb_eq in Ej. subst j. pose proof (refs_oob HI) as R2. fold n in R2. rewrite Hin0 in *. cbn [b2n] in *. lia.
  - intros u. unfold s'. cbn [sts thrs]. pose proof (@cs_attach base n i u _ Hbi) as C. pose proof (@ft_upd (thrs s) t x (Thr (snd (attach base n i)) None) u Hx) as T.
    rewrite Hf in T. cbn [fs] in T. change (fcnt u []) with 0 in T.
    assert (B : cs base u = cs (sts s) u) by (unfold base, cs; rewrite sumi_app; cbn; rewrite !Nat.add_0_r; apply cs_same; auto).
    pose proof (i_cnt HI u) as K. enough (E : want (sts s') u = want (sts s) u + b2n (n =? u)) by (unfold s' in E; cbn [sts] in E; lia).
    unfold want. rewrite HF. rewrite (Nat.eqb_sym n u). destruct (u =? n) eqn:Eu.
    + apply Nat.eqb_eq in Eu. subst u. assert (E : nth_error (sts s) n = None) by (apply nth_error_None; unfold n; lia). rewrite E. reflexivity.
    + cbn [b2n]. rewrite Nat.add_0_r. destruct (nth_error (sts s) u) as [z|]; [|reflexivity]. cbn. unfold want1. destruct (Fs u z) as (-> & _ & _ & -> & _). reflexivity.
  - intros j z' u Hz' Hin. rewrite HF in Hz'. destruct (j =? n) eqn:Ejn; [injection Hz' as <-; destruct Hin|]. destruct (nth_error (sts s) j) as [z|] eqn:Ez; [|discriminate]. cbn in Hz'. injection Hz' as <-.
    destruct (Fs j z) as (_ & _ & _ & -> & _).
    assert (G : In u (conts z) \/ (j = i /\ u = n /\ out z = None)).
    { unfold F in Hin. destruct (j =? i) eqn:Ej; [|auto]. apply Nat.eqb_eq in Ej. subst j. unfold attached in Hin. cbn in Hin. destruct (out z); [destruct Hin|]. apply in_app_or in Hin. destruct Hin as [Hin|[<-|[]]]; auto. }
    destruct G as [G|(-> & -> & G)].
    + destruct (i_conts HI _ _ Ez G) as (A & xv & Hv & L). split; [exact A|]. exists (F u xv). split; [auto|auto].
    + split; [exact G|]. exists new. rewrite HF, Nat.eqb_refl. split; [reflexivity|]. left. auto.
  - intros u Hfr. destruct (@frames_upd s t x _ _ _ Hx Hf Hfr) as [G|G].
    + rewrite (attach_conts _ _ _ Hbi) in G. cbn [out conts set_user] in G. rewrite Nc in G. destruct (out y) as [o|] eqn:Eo; [|destruct G]. destruct G as [G|[]]. injection G as <-.
      exists new, i, (F i y), o. rewrite HF, Nat.eqb_refl. repeat split; auto.
      * left. auto.
      * destruct (Fs i y) as (_ & _ & _ & -> & _). exact Eo.
      * congruence.
    + destruct (i_launch HI G) as (xv & j & z & o' & Hv & L & Hz & Eo & Hno). exists (F u xv), j, (F j z), o'. repeat split; auto. destruct (Fs j z) as (_ & _ & _ & -> & _). exact Eo.
  - intros u j Hfr. assert (G : frames (thrs s) (FAttach u j)).
    { destruct (@frames_upd s t x _ _ _ Hx Hf Hfr) as [G|G]; [|exact G]. rewrite (attach_conts _ _ _ Hbi) in G. destruct (out (set_user false y)); [|destruct G]. apply in_map_iff in G. destruct G as (v' & Ev & _). discriminate. }
    destruct (i_attach HI G) as (xv & Hv & Ev). exists (F u xv). split; [auto|]. destruct (Fs u xv) as (_ & _ & -> & _). exact Ev.
  - intros j z' Hz' Et. rewrite HF in Hz'. destruct (j =? n) eqn:Ejn; [injection Hz' as <-; discriminate|]. destruct (nth_error (sts s) j) as [z|] eqn:Ez; [|discriminate]. cbn in Hz'. injection Hz' as <-.
    destruct (Fs j z) as (_ & _ & _ & E4 & _). rewrite E4 in Et. destruct (i_fresh HI _ Ez Et) as (A & B). split.
    + unfold F. destruct (j =? i); [reflexivity|exact A].
    + intros v xv' Hv. rewrite HF in Hv. destruct (v =? n); [injection Hv as <-; split; [discriminate|intros E; discriminate E]|]. destruct (nth_error (sts s) v) as [xv|] eqn:Ev; [|discriminate]. cbn in Hv. injection Hv as <-.
      destruct (Fs v xv) as (_ & _ & -> & -> & _). exact (B _ _ Ev).
  - intros t' z i' Hz Ez. destruct (@wt_upd _ _ _ _ _ _ _ Hx Hz Ez) as [G|(t2 & z2 & Hz2 & E2)]; [discriminate|]. destruct (i_wt HI _ Hz2 E2) as (v & Hv & Eu). exists (F i' v). split; [auto|].
    unfold F. destruct (i' =? i) eqn:Ei; [|exact Eu]. apply Nat.eqb_eq in Ei. subst i'. exfalso. exact (Hnw _ _ Hz2 E2).
Qed.
End UnwrapIt.

(** ** Waiting *)
Lemma inv_thr s t x z e : inv s -> nth_error (thrs s) t = Some x -> fs x = [] -> fs z = [] ->
  (forall i, wt z = Some i -> exists v, nth_error (sts s) i = Some v /\ user v = true) ->
  (exists a b, e = EWaits a b \/ e = EWaited a b) -> inv (Sys (sts s) (upd_thr (thrs s) t z) (e :: hist s)).
Proof.
  intros HI Hx Hf Hfz Hw He. set (s' := Sys _ _ _).
  assert (Hfr : forall f, frames (thrs s') f -> frames (thrs s) f).
  { intros f Hfr. destruct z as [fz wz]. cbn in Hfz. subst fz. destruct (@frames_upd s t x _ _ _ Hx Hf Hfr) as [[]|G]. exact G. }
  constructor.
  - apply (@sta_pres s s' [e] (i_sta HI)).
    + intros j y Hy. exists y. auto.
    + reflexivity.
    + cbn. lia.
    + intros e' [<-|[]]. destruct He as (a & b & [-> | ->]); exact Logic.I.
    + intros k x' Hx'. left. exists x'. auto 12.
  - exact (i_ref HI).
  - intros u. pose proof (@ft_upd (thrs s) t x z u Hx) as T. rewrite Hf, Hfz in T. pose proof (i_cnt HI u). unfold s'. cbn [sts thrs]. lia.
  - exact (i_conts HI).
  - intros u H. exact (i_launch HI (Hfr _ H)).
  - intros u j H. exact (i_attach HI (Hfr _ H)).
  - exact (i_fresh HI).
  - intros t' z' i Hz Ez. destruct (@wt_upd _ _ _ _ _ _ _ Hx Hz Ez) as [G|(t2 & z2 & Hz2 & E2)]; [exact (Hw _ G)|]. exact (i_wt HI _ Hz2 E2).
Qed.

Lemma finish_eta l i o : finish l i o = (fst (finish l i o), snd (finish l i o)).
Proof. destruct (finish l i o); reflexivity. Qed.
Lemma attach_eta l i o : attach l i o = (fst (attach l i o), snd (attach l i o)).
Proof. destruct (attach l i o); reflexivity. Qed.
Lemma inner_ty s u x j y : sta s -> nth_error (sts s) u = Some x -> inner x = Some j -> nth_error (sts s) j = Some y -> ty y = ty x.
Proof. intros HI Hx Hi Hy. destruct (a_inner HI _ Hx Hi) as (w & y' & _ & _ & Hy' & E). congruence. Qed.

Lemma inv_step s l s' : inv s -> exec s l = Some s' -> inv s'.
Proof.
  intros HI He. destruct l as [t o|t|t o]; cbn in He; destruct (nth_error (thrs s) t) as [x|] eqn:Hx; try discriminate.
  - unfold idle in He. destruct (fs x) as [|f fr] eqn:Hf; [|discriminate]. destruct (wt x) as [j|] eqn:Hw; [discriminate|]. destruct o as [k d|i o|i|i|i]; cbn in He.
    + injection He as <-. apply inv_new. exact HI.
    + destruct (nth_error (sts s) i) as [y|] eqn:Hy; [|discriminate]. destruct (src y) eqn:Hs; try discriminate. destruct (out y) eqn:Ho; [discriminate|].
      destruct (has_type (sts s) (ty y) o && movable_in s o) eqn:Ht; [|discriminate]. apply andb_prop in Ht. destruct Ht as (Ht & Hm). rewrite finish_eta in He. injection He as <-.
      rewrite <- (modify_id (sts s) i) at 1 2. apply (@inv_set s t x i y o (fun z => z) None); auto; intros; congruence.
    + destruct (nth_error (sts s) i) as [y|] eqn:Hy; [|discriminate]. destruct (ty y) as [|k] eqn:Ht; [discriminate|]. destruct (movable s i) eqn:Hm; [|discriminate]. rewrite attach_eta in He. injection He as <-.
      apply (@inv_unwrap s t x i k y); auto.
    + destruct (nth_error (sts s) i) as [y|] eqn:Hy; [|discriminate]. destruct (user y) eqn:Hu; [|discriminate]. injection He as <-. apply (@inv_thr s t x); eauto. cbn. intros i' E. injection E as <-. eauto.
    + destruct (nth_error (sts s) i) as [y|] eqn:Hy; [|discriminate]. destruct (out y) as [o|] eqn:Ho; [|discriminate]. destruct (movable s i) eqn:Hm; [|discriminate]. injection He as <-. eapply inv_get; eauto.
  - unfold run in He. destruct (fs x) as [|[u|u j] fr] eqn:Hf.
    + destruct (wt x) as [i|] eqn:Hw; [|discriminate]. destruct (nth_error (sts s) i) as [y|] eqn:Hy; [|discriminate]. destruct (out y) eqn:Ho; [|discriminate]. injection He as <-.
      apply (@inv_thr s t x); eauto. cbn. intros; discriminate.
    + unfold launch in He. destruct (nth_error (sts s) u) as [xu|] eqn:Hu; [|discriminate]. destruct (src xu) as [| |w] eqn:Hs; try discriminate. destruct (inner xu) as [j|] eqn:Hi.
      * destruct (nth_error (sts s) j) as [y|] eqn:Hy; [|discriminate]. destruct (out y) as [oq|] eqn:Ho; [|discriminate].
        assert (Hl : linked xu j) by (right; exact Hi).
        pose proof (a_out (i_sta HI) _ Hy) as A. rewrite Ho in A. destruct A as (A1 & A2 & _). pose proof (@inner_ty _ _ _ _ _ (i_sta HI) Hu Hi Hy) as Ety. rewrite Ety in A1.
        destruct (a_inner (i_sta HI) _ Hu Hi) as (w' & y' & Hw' & Rw & _). assert (w' = w) by congruence. subst w'.
        pose proof (a_src (i_sta HI) _ Hu) as As. rewrite Hs in As. destruct As as (As & _).
        assert (Rr : oq <> Taken -> res (hist s) u oq) by (intros Hn; eapply R_inner; eauto).
        destruct oq as [v|e|oj|]; [| | |discriminate].
        -- rewrite finish_eta in He. injection He as <-. apply (@inv_finish s t x u fr xu j y (Val v) (Val v) true); auto; try discriminate; [destruct A1; [discriminate|auto]|apply Rr; discriminate].
        -- rewrite finish_eta in He. injection He as <-. apply (@inv_finish s t x u fr xu j y (Exc e) (Exc e) false); auto; try discriminate; [apply Rr; discriminate].
        -- rewrite finish_eta in He. injection He as <-. apply (@inv_finish s t x u fr xu j y (Fut oj) (Fut oj) true); auto; try discriminate; [destruct A1; [discriminate|auto]|apply Rr; discriminate].
      * destruct (nth_error (sts s) w) as [y|] eqn:Hy; [|discriminate]. destruct (out y) as [oq|] eqn:Ho; [|discriminate].
        assert (Hl : linked xu w) by (left; auto). pose proof (a_out (i_sta HI) _ Hy) as A. rewrite Ho in A. destruct A as (A1 & A2 & _).
        pose proof (a_src (i_sta HI) _ Hu) as As. rewrite Hs in As. destruct As as (As & _).
        destruct oq as [v|e|[j|]|]; try discriminate.
        -- rewrite finish_eta in He. injection He as <-. apply (@inv_finish s t x u fr xu w y (Exc e) (Exc e) false); auto; try discriminate. eapply R_outer_failed; eauto. apply A2. discriminate.
        -- injection He as <-. eapply inv_inner; eauto.
        -- rewrite finish_eta in He. injection He as <-. apply (@inv_finish s t x u fr xu w y (Fut None) (Exc NO_STATE) true); auto; try discriminate. eapply R_inner_invalid; eauto. apply A2. discriminate.
    + assert (Hfr : frames (thrs s) (FAttach u j)) by (exists t, x; rewrite Hf; split; [auto|left; auto]). destruct (i_attach HI Hfr) as (xu & Hu & Hi).
      destruct (a_inner (i_sta HI) _ Hu Hi) as (w & y & _ & _ & Hy & _). rewrite attach_eta in He. injection He as <-. eapply inv_attach; eauto.
  - unfold run_deferred in He. destruct (fs x) as [|f fr] eqn:Hf; [|discriminate]. destruct (wt x) as [i|] eqn:Hw; [|discriminate]. destruct (nth_error (sts s) i) as [y|] eqn:Hy; [|discriminate].
    destruct (src y) eqn:Hs; try discriminate. destruct (started y) eqn:Hst; [discriminate|]. destruct (has_type (sts s) (ty y) o && movable_in s o) eqn:Ht; [|discriminate]. apply andb_prop in Ht. destruct Ht as (Ht & Hm).
    rewrite finish_eta in He. injection He as <-. apply (@inv_set s t x i y o set_started (Some i)); auto; try congruence.
    destruct (out y) eqn:Ho; [|reflexivity]. pose proof (a_def (i_sta HI) _ Hy Hs) as (_ & A). rewrite Ho in A. specialize (A ltac:(discriminate)). congruence.
Qed.

Lemma inv_init n : inv (init n).
Proof.
  assert (E : forall i, nth_error (@nil st) i = None) by (intros [|i]; reflexivity).
  assert (Et : forall t z, nth_error (thrs (init n)) t = Some z -> z = Thr [] None) by (intros t z Hz; apply nth_error_In in Hz; apply repeat_spec in Hz; auto).
  constructor; cbn [sts init hist].
  - constructor; cbn [sts init hist]; try (intros; rewrite E in *; discriminate); intros; match goal with H : In _ [] |- _ => destruct H end.
  - intros j. cbn. lia.
  - intros u. unfold want. rewrite E. cbn. apply sumi_zero. intros i z Hz. rewrite (Et _ _ Hz). reflexivity.
  - intros; rewrite E in *; discriminate.
  - intros u (t & z & Hz & Hin). rewrite (Et _ _ Hz) in Hin. destruct Hin.
  - intros u j (t & z & Hz & Hin). rewrite (Et _ _ Hz) in Hin. destruct Hin.
  - intros; rewrite E in *; discriminate.
  - intros t z i Hz Ez. rewrite (Et _ _ Hz) in Ez. discriminate.
Qed.
Lemma inv_reach n s : reach n s -> inv s.
Proof. induction 1; [apply inv_init|eapply inv_step; eauto]. Qed.
