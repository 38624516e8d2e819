(** * Proofs about the lock objects *)

From Verif Require Import Monitor MonitorLemmas.
From Verif Require Export LK_Spec.
Set Implicit Arguments.

Definition ind (b : bool) : nat := if b then 1 else 0.
Definition ow (l : lk) : hold := fun m k => ind (lk_owns l m k).
Definition owo (o : option obj) : hold := fun m k => ind (obj_owns m k o).
Definition zero : hold := fun _ _ => 0.

Definition wfl (l : lk) : Prop := l_own l = true -> l_mx l <> None.
Definition kof (s : lstate) (a : nat) : option kind := match get s a with Some (OLock l) => Some (l_kind l) | _ => None end.
Definition wfo (K : nat -> option kind) (o : option obj) : Prop :=
  match o with
  | None => True
  | Some (OLock l) => wfl l
  | Some (OUp (Some i) l) => wfl l /\ l_kind l = KU /\ K i = Some KG
  | Some (OUp None l) => l_own l = false
  | Some (OGuard _ _) => True
  | Some (ORev i _) => K i = Some KU
  | Some (ONest i l) => wfl l /\ K i = Some (l_kind l)
  end.

(** Invariant with [x] locks in the hands of temporaries. *)
Definition InvX (s : lstate) (x : hold) : Prop :=
  (forall m k, s_hold s m k = s_raw s m k + sumw (fun o => owo o m k) (s_objs s) + x m k) /\
  Forall (wfo (kof s)) (s_objs s).

Lemma kind_eqb_true a b : kind_eqb a b = true <-> a = b.
Proof. destruct a, b; simpl; split; congruence. Qed.

Lemma get_nth s a o : get s a = Some o -> nth_error (s_objs s) a = Some (Some o).
Proof. unfold get. destruct (nth_error (s_objs s) a) as [[x|]|]; congruence. Qed.

Lemma wfo_mono (K K' : nat -> option kind) o :
  (forall i k, K i = Some k -> K' i = Some k) -> wfo K o -> wfo K' o.
Proof. intros H. destruct o as [[l|[i|] l|k m|i mx|i l]|]; simpl; firstorder. Qed.

Lemma Inv_get s x a o : InvX s x -> get s a = Some o -> wfo (kof s) (Some o).
Proof. intros [_ H] Hg. exact (Forall_nth_error H (get_nth s a Hg)). Qed.

Lemma get_put_same s a o o' : get s a = Some o -> get (put s a o') a = o'.
Proof. intros H. apply get_nth in H. unfold get. simpl. rewrite nth_error_upd_same by (eapply nth_error_lt; eauto). now destruct o'. Qed.
Lemma get_put_other s a b o : a <> b -> get (put s a o) b = get s b.
Proof. intros H. unfold get. simpl. rewrite nth_error_upd_other; auto. Qed.
Lemma get_new_old s o a x : get s a = Some x -> get (new s o) a = Some x.
Proof.
  intros H. apply get_nth in H. unfold get. simpl. rewrite nth_error_app1; [now rewrite H|].
  apply nth_error_Some. congruence.
Qed.

(** Replacing a lock object by one of the same class, or any object that no other refers to as a lock. *)
Lemma InvX_put s x x' a o o' :
  InvX s x -> get s a = Some o ->
  (forall k, kof s a = Some k -> exists l, o' = OLock l /\ l_kind l = k) ->
  wfo (kof s) (Some o') ->
  (forall m k, owo (Some o) m k + x m k = owo (Some o') m k + x' m k) ->
  InvX (put s a (Some o')) x'.
Proof.
  intros [Hb Hw] Hg Hk Ho He.
  assert (Hm : forall i k, kof s i = Some k -> kof (put s a (Some o')) i = Some k).
  { intros i k Hi. destruct (Nat.eq_dec a i) as [<-|Hne].
    - destruct (Hk _ Hi) as (l & -> & Hl). unfold kof. rewrite (get_put_same _ _ _ Hg). now rewrite Hl.
    - unfold kof in *. now rewrite get_put_other. }
  split.
  - intros m k. simpl. pose proof (sumw_upd (fun o => owo o m k) (Some o') (get_nth s a Hg)) as Hs.
    specialize (He m k). specialize (Hb m k). simpl in Hs. lia.
  - simpl. apply Forall_upd; [|now apply wfo_mono with (K := kof s)].
    eapply Forall_impl; [|exact Hw]. intros y. now apply wfo_mono.
Qed.

Lemma InvX_new s x x' o :
  InvX s x -> wfo (kof s) (Some o) -> (forall m k, x m k = owo (Some o) m k + x' m k) -> InvX (new s o) x'.
Proof.
  intros [Hb Hw] Ho He.
  assert (Hm : forall i k, kof s i = Some k -> kof (new s o) i = Some k).
  { intros i k. unfold kof. destruct (get s i) as [y|] eqn:E; [|discriminate].
    rewrite (get_new_old _ _ _ E). auto. }
  split.
  - intros m k. simpl. specialize (Hb m k). specialize (He m k).
    assert (Hs : forall l, sumw (fun o => owo o m k) (l ++ [Some o]) = sumw (fun o => owo o m k) l + owo (Some o) m k).
    { induction l; simpl; lia. }
    rewrite Hs. lia.
  - simpl. apply Forall_app. split.
    + eapply Forall_impl; [|exact Hw]. intros y. now apply wfo_mono.
    + constructor; [now apply wfo_mono with (K := kof s)|constructor].
Qed.

Lemma InvX_hold s x x' h :
  InvX s x -> (forall m k, h m k + x m k = s_hold s m k + x' m k) -> InvX (set_hold s h) x'.
Proof. intros [Hb Hw] He. split; [|exact Hw]. intros m k. simpl. specialize (Hb m k). specialize (He m k). lia. Qed.

Lemma InvX_raw s x x' r :
  InvX s x -> (forall m k, s_raw s m k + x m k = r m k + x' m k) -> InvX (set_raw s r) x'.
Proof. intros [Hb Hw] He. split; [|exact Hw]. intros m k. simpl. specialize (Hb m k). specialize (He m k). lia. Qed.

Lemma InvX_ext s x x' : InvX s x -> (forall m k, x m k = x' m k) -> InvX s x'.
Proof. intros [Hb Hw] He. split; [|exact Hw]. intros m k. now rewrite <- He. Qed.

Lemma ow_own l m : l_own l = true -> l_mx l = Some m -> forall m' k', ow l m' k' = ind (same m (l_kind l) m' k').
Proof.
  intros H1 H2 m' k'. unfold ow, lk_owns, same. rewrite H1, H2. reflexivity.
Qed.
Lemma ow_not l : l_own l = false -> forall m k, ow l m k = 0.
Proof. intros H m k. unfold ow, lk_owns. now rewrite H. Qed.
Lemma ow_mk k m m' k' : ow (MkLk k (Some m) true) m' k' = ind (same m k m' k').
Proof. reflexivity. Qed.
Lemma ow_mk_not k m m' k' : ow (MkLk k m false) m' k' = 0.
Proof. reflexivity. Qed.
Lemma ow_empty k m' k' : ow (lk_empty k) m' k' = 0.
Proof. reflexivity. Qed.
Lemma owo_lock l m k : owo (Some (OLock l)) m k = ow l m k.
Proof. reflexivity. Qed.
Lemma owo_up i l m k : owo (Some (OUp i l)) m k = ow l m k.
Proof. reflexivity. Qed.
Lemma owo_nest i l m k : owo (Some (ONest i l)) m k = ow l m k.
Proof. reflexivity. Qed.
Lemma owo_rev i l m k : owo (Some (ORev i l)) m k = 0.
Proof. reflexivity. Qed.
Lemma owo_guard m0 k0 m k : owo (Some (OGuard k0 m0)) m k = ind (same m0 k0 m k).
Proof. reflexivity. Qed.
Lemma incr_eq h m k m' k' : incr h m k m' k' = h m' k' + ind (same m k m' k').
Proof. unfold incr, ind. destruct (same m k m' k'); lia. Qed.
Lemma same_refl m k : same m k m k = true.
Proof. unfold same. rewrite Nat.eqb_refl. now destruct k. Qed.
Lemma same_true m k m' k' : same m k m' k' = true -> m' = m /\ k' = k.
Proof. unfold same. rewrite andb_true_iff, Nat.eqb_eq, kind_eqb_true. intuition congruence. Qed.
Lemma decr_eq h m k m' k' : h m k <> 0 -> decr h m k m' k' + ind (same m k m' k') = h m' k'.
Proof.
  intros H. unfold decr, ind. destruct (same m k m' k') eqn:E; [|lia].
  apply same_true in E as [-> ->]. lia.
Qed.

Lemma InvX_mx_unlock s x m k :
  InvX s x -> (forall m' k', ind (same m k m' k') <= x m' k') ->
  exists h, mx_unlock m k (s_hold s) = Some h /\ (forall m' k', h m' k' + ind (same m k m' k') = s_hold s m' k').
Proof.
  intros [Hb _] Hx. unfold mx_unlock.
  specialize (Hb m k). specialize (Hx m k). rewrite same_refl in Hx. simpl in Hx.
  destruct (s_hold s m k =? 0) eqn:E.
  - apply Nat.eqb_eq in E. lia.
  - apply Nat.eqb_neq in E. eexists. split; [reflexivity|]. intros. now apply decr_eq.
Qed.

Lemma InvX_destroy s x l :
  InvX s x -> wfl l -> (forall m k, ow l m k <= x m k) ->
  exists h, destroy_lk l (s_hold s) = Some h /\ (forall m k, h m k + ow l m k = s_hold s m k).
Proof.
  intros HI Hw Hx. unfold destroy_lk, wfl in *. destruct (l_own l) eqn:Eo.
  - destruct (l_mx l) as [m|] eqn:Em; [|exfalso; now apply Hw].
    assert (Ho := ow_own l Eo Em).
    destruct (@InvX_mx_unlock s x m (l_kind l) HI) as (h & Hh & Hd).
    + intros m' k'. rewrite <- Ho. auto.
    + exists h. split; auto. intros m' k'. now rewrite Ho.
  - exists (s_hold s). split; auto. intros. rewrite ow_not by auto. lia.
Qed.

Lemma InvX_conv s x l k :
  InvX s x -> wfl l -> (forall m k, ow l m k <= x m k) ->
  exists l' h, conv_lk k l (s_hold s) = Some (l', h) /\ wfl l' /\ l_kind l' = k /\ l_own l' = l_own l /\ l_mx l' = l_mx l /\
    (forall m' k', h m' k' + ow l m' k' = s_hold s m' k' + ow l' m' k').
Proof.
  intros HI Hw Hx. unfold conv_lk, wfl in *. destruct (l_own l) eqn:Eo.
  - destruct (l_mx l) as [m|] eqn:Em; [|exfalso; now apply Hw].
    assert (Ho := ow_own l Eo Em).
    destruct (@InvX_mx_unlock s x m (l_kind l) HI) as (h & Hh & Hd).
    + intros m' k'. rewrite <- Ho. auto.
    + rewrite Hh. do 2 eexists. split; [reflexivity|]. simpl. repeat split; try congruence.
      intros m' k'. rewrite Ho, incr_eq, ow_mk. specialize (Hd m' k'). lia.
  - do 2 eexists. split; [reflexivity|]. simpl. repeat split; try congruence.
    intros. rewrite ow_not by auto. rewrite ow_mk_not. lia.
Qed.

Lemma InvX_assign s x x' a l old :
  InvX s x -> get s a = Some (OLock old) -> wfl l -> l_kind l = l_kind old ->
  (forall m k, x m k = ow l m k + x' m k) ->
  exists s', assign s a l = Some (s', RUnit) /\ InvX s' x' /\ get s' a = Some (OLock l) /\
    (forall b, b <> a -> get s' b = get s b) /\ s_raw s' = s_raw s.
Proof.
  intros HI Hg Hw Hk Hx. unfold assign. rewrite Hg.
  assert (Hwo : wfl old) by exact (Inv_get a HI Hg).
  set (s1 := put s a (Some (OLock l))).
  assert (H1 : InvX s1 (fun m k => ow old m k + x' m k)).
  { unfold s1. eapply InvX_put; eauto.
    - intros k. unfold kof. rewrite Hg. injection 1 as <-. eauto.
    - intros m k. rewrite !owo_lock. rewrite Hx. lia. }
  destruct (@InvX_destroy s1 _ old H1 Hwo) as (h & Hh & Hd).
  { intros. simpl. lia. }
  change (s_hold s1) with (s_hold s) in Hh. rewrite Hh. eexists. split; [reflexivity|]. split.
  - eapply InvX_hold; [exact H1|]. intros m k. specialize (Hd m k). simpl. change (s_hold s1) with (s_hold s) in *. lia.
  - split; [|split; [|reflexivity]].
    + change (get (put s a (Some (OLock l))) a = Some (OLock l)). exact (get_put_same s a _ Hg).
    + intros b Hb. change (get (put s a (Some (OLock l))) b = get s b). apply get_put_other. congruence.
Qed.

Lemma kof_get s a l : get s a = Some (OLock l) -> kof s a = Some (l_kind l).
Proof. unfold kof. now intros ->. Qed.

Lemma kof_inv s a k : kof s a = Some k -> exists l, get s a = Some (OLock l) /\ l_kind l = k.
Proof. unfold kof. destruct (get s a) as [[l| | | | ]|]; try discriminate. injection 1 as <-. eauto. Qed.

Lemma refers_false s a : existsb (refers a) (s_objs s) = false -> forall i o, get s i = Some o -> refers a (Some o) = false.
Proof.
  intros H i o Hg. destruct (refers a (Some o)) eqn:E; auto.
  assert (existsb (refers a) (s_objs s) = true); [|congruence].
  apply existsb_exists. exists (Some o). split; auto. exact (nth_error_In _ _ (get_nth s i Hg)).
Qed.

(** Removing an object that nobody refers to. *)
Lemma InvX_remove s x x' a o :
  InvX s x -> get s a = Some o -> existsb (refers a) (s_objs s) = false ->
  (forall m k, owo (Some o) m k + x m k = x' m k) -> InvX (put s a None) x'.
Proof.
  intros [Hb Hw] Hg Hr He.
  assert (Hm : forall i k, i <> a -> kof s i = Some k -> kof (put s a None) i = Some k).
  { intros i k Hne. unfold kof. now rewrite get_put_other by congruence. }
  split.
  - intros m k. simpl. pose proof (sumw_upd (fun o => owo o m k) None (get_nth s a Hg)) as Hs.
    specialize (He m k). specialize (Hb m k). simpl in Hs. change (owo None m k) with 0 in Hs. lia.
  - simpl. apply Forall_upd; [|exact I].
    apply Forall_forall. intros y Hy. pose proof (proj1 (Forall_forall _ _) Hw y Hy) as Hwy.
    assert (Hry : refers a y = false).
    { destruct (refers a y) eqn:E; auto. assert (existsb (refers a) (s_objs s) = true); [|congruence].
      apply existsb_exists. eauto. }
    destruct y as [[l|[i|] l|k m|i mx|i l]|]; simpl in *; auto;
      apply Nat.eqb_neq in Hry; firstorder.
Qed.

Definition rev_ok (op : lop) : Prop := match op with LRev k _ => k = KU | _ => True end.

Ltac pw := intros; rewrite ?owo_lock, ?owo_up, ?owo_nest, ?owo_rev, ?owo_guard, ?ow_mk, ?ow_mk_not, ?ow_empty, ?incr_eq; unfold zero; simpl; try lia.

Lemma Inv_put_lock s x x' a l l' :
  InvX s x -> get s a = Some (OLock l) -> wfl l' -> l_kind l' = l_kind l ->
  (forall m k, ow l m k + x m k = ow l' m k + x' m k) -> InvX (put s a (Some (OLock l'))) x'.
Proof.
  intros HI Hg Hw Hk He. eapply InvX_put; eauto.
  intros k. rewrite (kof_get _ _ Hg). injection 1 as <-. eauto.
Qed.

Lemma wfl_empty k : wfl (lk_empty k).
Proof. discriminate. Qed.
Lemma wfl_mk k m b : wfl (MkLk k (Some m) b).
Proof. discriminate. Qed.
Lemma wfl_not k m : wfl (MkLk k m false).
Proof. discriminate. Qed.
#[export] Hint Resolve wfl_empty wfl_mk wfl_not : core.

Lemma zero_le (f : hold) : forall m k, f m k <= f m k. Proof. lia. Qed.

Lemma kof_put_other_lock s a l l' :
  get s a = Some (OLock l) -> l_kind l' = l_kind l -> forall i, kof (put s a (Some (OLock l'))) i = kof s i.
Proof.
  intros Hg Hk i. destruct (Nat.eq_dec a i) as [<-|Hne].
  - unfold kof. rewrite (get_put_same _ _ _ Hg), Hg. now rewrite Hk.
  - unfold kof. now rewrite get_put_other.
Qed.

Lemma kof_put_nonlock s a o o' :
  get s a = Some o -> (forall l, o <> OLock l) -> (forall l, o' <> OLock l) -> forall i, kof (put s a (Some o')) i = kof s i.
Proof.
  intros Hg H1 H2 i. destruct (Nat.eq_dec a i) as [<-|Hne].
  - unfold kof. rewrite (get_put_same _ _ _ Hg), Hg. destruct o, o'; try reflexivity; exfalso; first [eapply H1; reflexivity|eapply H2; reflexivity].
  - unfold kof. now rewrite get_put_other.
Qed.

Lemma wfo_ext (K K' : nat -> option kind) o : (forall i, K' i = K i) -> wfo K o -> wfo K' o.
Proof. intros H. apply wfo_mono. intros i k. now rewrite H. Qed.

Lemma Inv_put_nonlock s x x' a o o' :
  InvX s x -> get s a = Some o -> (forall l, o <> OLock l) -> wfo (kof s) (Some o') ->
  (forall m k, owo (Some o) m k + x m k = owo (Some o') m k + x' m k) -> InvX (put s a (Some o')) x'.
Proof.
  intros HI Hg Hn Hw He. eapply InvX_put; eauto.
  intros k. unfold kof. rewrite Hg. destruct o; try discriminate. exfalso. eapply Hn; reflexivity.
Qed.

(** The shape shared by the converting constructors. *)
Lemma Inv_conv_new s a l k :
  InvX s zero -> get s a = Some (OLock l) ->
  exists l' h, conv_lk k l (s_hold s) = Some (l', h) /\ wfl l' /\ l_kind l' = k /\ l_own l' = l_own l /\ l_mx l' = l_mx l /\
    InvX (set_hold (put s a (Some (OLock (lk_empty (l_kind l))))) h) (ow l') /\
    (forall i, kof (put s a (Some (OLock (lk_empty (l_kind l))))) i = kof s i).
Proof.
  intros HI Hg. assert (Hw : wfl l) by exact (Inv_get a HI Hg).
  assert (H1 : InvX (put s a (Some (OLock (lk_empty (l_kind l))))) (ow l)).
  { eapply Inv_put_lock; eauto; pw. }
  destruct (@InvX_conv _ _ l k H1 Hw (zero_le _)) as (l' & h & Hc & Hwl & Hk & Ho & Hm & He).
  exists l', h. change (s_hold (put s a (Some (OLock (lk_empty (l_kind l)))))) with (s_hold s) in Hc.
  split; [exact Hc|]. split; [exact Hwl|]. split; [exact Hk|]. split; [exact Ho|]. split; [exact Hm|]. split.
  - eapply InvX_hold; [exact H1|]. intros m' k'. specialize (He m' k'). lia.
  - intros i. eapply kof_put_other_lock; eauto.
Qed.

Ltac done_ok := (split; [|discriminate]).
Ltac step_some H := injection H as <- <-; done_ok.

Lemma Inv_step s op w s' r :
  InvX s zero -> rev_ok op -> lstep s op w = Some (s', r) -> InvX s' zero /\ r <> RUB.
Proof.
  intros HI Hok H.
  assert (HG : forall a o, get s a = Some o -> wfo (kof s) (Some o)) by (intros a o; apply (Inv_get a HI)).
  destruct op as [m k|m k|k|k m|k m|k m|k m|a|k a|k a|a b|a b|a b|a|a|a|a|a|a|a b|a b|k m|k m|k a|a|a];
    cbn [lstep] in H.
  - (* user lock *) step_some H.
    eapply InvX_raw with (x := fun m' k' => ind (same m k m' k')).
    + eapply InvX_hold; [exact HI|]. pw.
    + pw.
  - (* user unlock *)
    destruct (s_raw s m k =? 0) eqn:Er; [discriminate|]. apply Nat.eqb_neq in Er.
    assert (H1 : InvX (set_raw s (decr (s_raw s) m k)) (fun m' k' => ind (same m k m' k'))).
    { eapply InvX_raw; [exact HI|]. intros m' k'. pose proof (decr_eq (s_raw s) m k m' k' Er). pw. }
    destruct (@InvX_mx_unlock _ _ m k H1 (fun _ _ => le_n _)) as (h & Hh & Hd).
    change (s_hold (set_raw s (decr (s_raw s) m k))) with (s_hold s) in *. rewrite Hh in H. step_some H.
    change (InvX (set_hold (set_raw s (decr (s_raw s) m k)) h) zero).
    eapply InvX_hold; [exact H1|]. intros m' k'. specialize (Hd m' k'). pw.
  - step_some H. eapply InvX_new; eauto; simpl; auto; pw.
  - (* ctor *)
    assert (H1 : InvX (set_hold (new s (OLock (MkLk k (Some m) true))) (incr (s_hold s) m k)) zero).
    { change (InvX (new (set_hold s (incr (s_hold s) m k)) (OLock (MkLk k (Some m) true))) zero).
      eapply InvX_new with (x := fun m' k' => ind (same m k m' k')); simpl; auto; try solve [pw].
      eapply InvX_hold; [exact HI|]. pw. }
    destruct w; step_some H; auto.
  - (* adopt *)
    destruct (s_raw s m k =? 0) eqn:Er; [discriminate|]. apply Nat.eqb_neq in Er. step_some H.
    change (InvX (new (set_raw s (decr (s_raw s) m k)) (OLock (MkLk k (Some m) true))) zero).
    eapply InvX_new with (x := fun m' k' => ind (same m k m' k')); simpl; auto; try solve [pw].
    eapply InvX_raw; [exact HI|]. intros m' k'. pose proof (decr_eq (s_raw s) m k m' k' Er). pw.
  - step_some H. eapply InvX_new; eauto; simpl; auto; pw.
  - (* try ctor *)
    assert (H1 : InvX (set_hold (new s (OLock (MkLk k (Some m) true))) (incr (s_hold s) m k)) zero).
    { change (InvX (new (set_hold s (incr (s_hold s) m k)) (OLock (MkLk k (Some m) true))) zero).
      eapply InvX_new with (x := fun m' k' => ind (same m k m' k')); simpl; auto; try solve [pw].
      eapply InvX_hold; [exact HI|]. pw. }
    destruct w; step_some H; auto. eapply InvX_new; eauto; simpl; auto; pw.
  - (* move *)
    destruct (get s a) as [[l| | | | ]|] eqn:Eg; try discriminate. step_some H.
    assert (Hw : wfl l) by exact (HG _ _ Eg).
    eapply InvX_new with (x := ow l); simpl; auto; try solve [pw].
    eapply Inv_put_lock; eauto; pw.
  - (* conv *)
    destruct (get s a) as [[l| | | | ]|] eqn:Eg; try discriminate.
    destruct (can_conv (l_kind l) k) eqn:Ec; [|discriminate].
    destruct (Inv_conv_new a k HI Eg) as (l' & h & Hc & Hwl & Hk & _ & _ & HX & _). rewrite Hc in H.
    assert (HN : InvX (set_hold (new (put s a (Some (OLock (lk_empty (l_kind l))))) (OLock l')) h) zero).
    { change (InvX (new (set_hold (put s a (Some (OLock (lk_empty (l_kind l))))) h) (OLock l')) zero).
      eapply InvX_new; [exact HX|exact Hwl|]. pw. }
    destruct (l_kind l) eqn:Ek; [| |destruct (l_own l) eqn:Eo; [destruct w|]].
    1,2,3,4,6: step_some H; exact HN.
    destruct k; try discriminate. step_some H. exact HI.
  - (* try conv *)
    destruct (get s a) as [[l| | | | ]|] eqn:Eg; try discriminate.
    destruct (can_try_conv (l_kind l) k) eqn:Ec; [|discriminate].
    destruct (Inv_conv_new a k HI Eg) as (l' & h & Hc & Hwl & Hk & _ & _ & HX & _). rewrite Hc in H.
    assert (HN : InvX (set_hold (new (put s a (Some (OLock (lk_empty (l_kind l))))) (OLock l')) h) zero).
    { change (InvX (new (set_hold (put s a (Some (OLock (lk_empty (l_kind l))))) h) (OLock l')) zero).
      eapply InvX_new; [exact HX|exact Hwl|]. pw. }
    destruct (l_own l); [destruct w|]; step_some H; auto. eapply InvX_new; eauto; simpl; auto; pw.
  - (* move assignment *)
    destruct (get s a) as [[la| | | | ]|] eqn:Ea; try discriminate.
    destruct (get s b) as [[lb| | | | ]|] eqn:Eb; try discriminate.
    destruct (kind_eqb (l_kind la) (l_kind lb)) eqn:Ek; [|discriminate]. apply kind_eqb_true in Ek.
    assert (H1 : InvX (put s b (Some (OLock (lk_empty (l_kind lb))))) (ow lb)).
    { eapply Inv_put_lock; eauto; pw. }
    assert (Hga : exists old, get (put s b (Some (OLock (lk_empty (l_kind lb))))) a = Some (OLock old) /\ l_kind old = l_kind lb).
    { apply kof_inv. erewrite kof_put_other_lock; eauto. rewrite (kof_get _ _ Ea). congruence. }
    destruct Hga as (old & Hga & Hko).
    assert (Hwb : wfl lb) by exact (HG _ _ Eb).
    destruct (@InvX_assign _ _ zero a lb old H1 Hga Hwb (eq_sym Hko)) as (s2 & Hs2 & HI2 & _); [pw|].
    rewrite Hs2 in H. step_some H. exact HI2.
  - (* converting assignment *)
    destruct (get s a) as [[la| | | | ]|] eqn:Ea; try discriminate.
    destruct (get s b) as [[lb| | | | ]|] eqn:Eb; try discriminate.
    destruct (can_conv (l_kind lb) (l_kind la)) eqn:Ec; [|discriminate].
    destruct (Inv_conv_new b (l_kind la) HI Eb) as (l' & h & Hc & Hwl & Hk & _ & _ & HX & HKo). rewrite Hc in H.
    set (s1 := set_hold (put s b (Some (OLock (lk_empty (l_kind lb))))) h) in *.
    assert (Hga : exists old, get s1 a = Some (OLock old) /\ l_kind old = l_kind la).
    { apply kof_inv. change (kof s1 a) with (kof (put s b (Some (OLock (lk_empty (l_kind lb))))) a).
      rewrite HKo, (kof_get _ _ Ea). reflexivity. }
    destruct Hga as (old & Hga & Hko).
    destruct (@InvX_assign _ _ zero a l' old HX Hga Hwl) as (s2 & Hs2 & HI2 & _); [congruence|pw|].
    rewrite Hs2 in H.
    destruct (l_kind lb), (l_kind la), (l_own lb), w; try discriminate; step_some H; auto.
  - (* swap *)
    destruct (get s a) as [[la| | | | ]|] eqn:Ea; try discriminate.
    destruct (get s b) as [[lb| | | | ]|] eqn:Eb; try discriminate.
    destruct (kind_eqb (l_kind la) (l_kind lb)) eqn:Ek; [|discriminate]. apply kind_eqb_true in Ek.
    step_some H.
    assert (Hwa : wfl la) by exact (HG _ _ Ea). assert (Hwb : wfl lb) by exact (HG _ _ Eb).
    destruct (Nat.eq_dec a b) as [<-|Hne].
    + rewrite Ea in Eb. injection Eb as <-.
      eapply Inv_put_lock with (x := zero) (l := la); [|exact (get_put_same s a _ Ea)| | |]; auto.
      eapply Inv_put_lock; eauto.
    + set (x1 := fun m k => ow la m k + 0).
      (* go through the intermediate state in which la is in flight and lb is counted twice *)
      assert (HB : InvX (put (put s b (Some (OLock (lk_empty (l_kind lb))))) a (Some (OLock lb))) (ow la)).
      { eapply Inv_put_lock with (x := ow lb) (l := la); [|rewrite get_put_other; eauto| | |pw]; auto.
        eapply Inv_put_lock; eauto; pw. }
      assert (Hu : put (put s a (Some (OLock lb))) b (Some (OLock la)) =
                   put (put (put s b (Some (OLock (lk_empty (l_kind lb))))) a (Some (OLock lb))) b (Some (OLock la))).
      { unfold put. simpl. f_equal. clear - Hne. revert a b Hne.
        induction (s_objs s) as [|y l IH]; intros [|a] [|b] Hne; simpl; auto; try congruence.
        all: f_equal; first [now rewrite upd_upd|apply IH; congruence]. }
      rewrite Hu. eapply Inv_put_lock; [exact HB| | | |].
      * rewrite get_put_other by auto. eapply get_put_same. exact Eb.
      * exact Hwa.
      * simpl. congruence.
      * pw.
  - (* lock *)
    destruct (get s a) as [[l| | | | ]|] eqn:Eg; try discriminate.
    destruct (l_mx l) as [m|] eqn:Em; [|step_some H; exact HI].
    destruct (l_own l) eqn:Eo; [step_some H; exact HI|].
    assert (HN : InvX (set_hold (put s a (Some (OLock (MkLk (l_kind l) (Some m) true)))) (incr (s_hold s) m (l_kind l))) zero).
    { change (InvX (put (set_hold s (incr (s_hold s) m (l_kind l))) a (Some (OLock (MkLk (l_kind l) (Some m) true)))) zero).
      eapply Inv_put_lock with (x := fun m' k' => ind (same m (l_kind l) m' k')); eauto.
      - eapply InvX_hold; [exact HI|]. pw.
      - intros. rewrite ow_not by auto. pw. }
    destruct w; step_some H; auto.
  - (* try_lock *)
    destruct (get s a) as [[l| | | | ]|] eqn:Eg; try discriminate.
    destruct (l_mx l) as [m|] eqn:Em; [|step_some H; exact HI].
    destruct (l_own l) eqn:Eo; [step_some H; exact HI|].
    assert (HN : InvX (set_hold (put s a (Some (OLock (MkLk (l_kind l) (Some m) true)))) (incr (s_hold s) m (l_kind l))) zero).
    { change (InvX (put (set_hold s (incr (s_hold s) m (l_kind l))) a (Some (OLock (MkLk (l_kind l) (Some m) true)))) zero).
      eapply Inv_put_lock with (x := fun m' k' => ind (same m (l_kind l) m' k')); eauto.
      - eapply InvX_hold; [exact HI|]. pw.
      - intros. rewrite ow_not by auto. pw. }
    destruct w; step_some H; auto. eapply Inv_put_lock; eauto. intros. rewrite ow_not by auto. pw.
  - (* unlock *)
    destruct (get s a) as [[l| | | | ]|] eqn:Eg; try discriminate.
    destruct (l_mx l) as [m|] eqn:Em; [|step_some H; exact HI].
    destruct (l_own l) eqn:Eo; simpl in H; [|step_some H; exact HI].
    assert (H1 : InvX (put s a (Some (OLock (MkLk (l_kind l) (Some m) false)))) (fun m' k' => ind (same m (l_kind l) m' k'))).
    { eapply Inv_put_lock; eauto. intros m' k'. rewrite (ow_own l Eo Em). pw. }
    destruct (@InvX_mx_unlock _ _ m (l_kind l) H1 (fun _ _ => le_n _)) as (h & Hh & Hd).
    change (s_hold (put s a (Some (OLock (MkLk (l_kind l) (Some m) false))))) with (s_hold s) in *. rewrite Hh in H.
    step_some H. eapply InvX_hold; [exact H1|]. intros m' k'. specialize (Hd m' k'). pw.
  - (* release *)
    destruct (get s a) as [[l| | | | ]|] eqn:Eg; try discriminate. step_some H.
    assert (H1 : InvX (put s a (Some (OLock (lk_empty (l_kind l))))) (ow l)).
    { eapply Inv_put_lock; eauto; pw. }
    destruct (l_mx l) as [m|] eqn:Em; [destruct (l_own l) eqn:Eo|].
    + eapply InvX_raw; [exact H1|]. intros m' k'. rewrite (ow_own l Eo Em). pw.
    + eapply InvX_ext; [exact H1|]. intros. rewrite ow_not by auto. reflexivity.
    + eapply InvX_ext; [exact H1|]. intros. assert (Hw : wfl l) by exact (HG _ _ Eg).
      rewrite ow_not; [reflexivity|]. destruct (l_own l) eqn:Eo; auto. exfalso. now apply Hw.
  - (* upgrade_to_unique_lock *)
    destruct (get s a) as [[l| | | | ]|] eqn:Eg; try discriminate.
    destruct (l_kind l) eqn:Ek; try discriminate.
    destruct (Inv_conv_new a KU HI Eg) as (l' & h & Hc & Hwl & Hk & _ & _ & HX & HKo). rewrite Hc in H.
    rewrite Ek in *.
    assert (HN : InvX (set_hold (new (put s a (Some (OLock (lk_empty KG)))) (OUp (Some a) l')) h) zero).
    { change (InvX (new (set_hold (put s a (Some (OLock (lk_empty KG)))) h) (OUp (Some a) l')) zero).
      eapply InvX_new; [exact HX| |pw].
      cbn [wfo]. split; [exact Hwl|]. split; [exact Hk|].
      change (kof (put s a (Some (OLock (lk_empty KG)))) a = Some KG). rewrite HKo, (kof_get _ _ Eg). congruence. }
    destruct (l_own l); [destruct w|]; step_some H; auto.
  - (* its move constructor *)
    destruct (get s a) as [[|src l| | | ]|] eqn:Eg; try discriminate. step_some H.
    assert (HW := HG _ _ Eg).
    assert (HK : forall i, kof (put s a (Some (OUp None (lk_empty KU)))) i = kof s i)
      by (eapply kof_put_nonlock; eauto; discriminate).
    eapply InvX_new with (x := ow l).
    + eapply Inv_put_nonlock; eauto; try discriminate; try reflexivity; try solve [pw].
    + eapply wfo_ext; [exact HK|exact HW].
    + pw.
  - (* its move assignment *)
    destruct (get s a) as [[|srca0 la0| | | ]|] eqn:Ea; try discriminate.
    destruct (get s b) as [[|srcb lb| | | ]|] eqn:Eb; try discriminate.
    assert (HWb := HG _ _ Eb).
    set (s1 := put s b (Some (OUp None (lk_empty KU)))) in *.
    assert (HK1 : forall i, kof s1 i = kof s i) by (eapply kof_put_nonlock; eauto; discriminate).
    assert (H1 : InvX s1 (ow lb)).
    { eapply Inv_put_nonlock; eauto; try discriminate; try reflexivity; try solve [pw]. }
    destruct (get s1 a) as [[|srca la| | | ]|] eqn:Ea1; try discriminate.
    assert (HWa := Inv_get a H1 Ea1).
    set (s2 := put s1 a (Some (OUp srcb lb))) in *.
    assert (HK2 : forall i, kof s2 i = kof s1 i) by (eapply kof_put_nonlock; eauto; discriminate).
    assert (H2 : InvX s2 (ow la)).
    { eapply Inv_put_nonlock; eauto; try discriminate; try solve [pw]. eapply wfo_ext; [exact HK1|exact HWb]. }
    destruct srca as [i|].
    + simpl in HWa. destruct HWa as (Hwl & Hkl & Hki).
      destruct (@InvX_conv _ _ la KG H2 Hwl (zero_le _)) as (l' & h & Hc & Hwl' & Hk' & _ & _ & He).
      rewrite Hc in H.
      assert (H3 : InvX (set_hold s2 h) (ow l')).
      { eapply InvX_hold; [exact H2|]. intros m k. specialize (He m k). lia. }
      assert (Hgi : exists old, get (set_hold s2 h) i = Some (OLock old) /\ l_kind old = KG).
      { apply kof_inv. change (kof s2 i = Some KG). now rewrite HK2. }
      destruct Hgi as (old & Hgi & Hko).
      destruct (@InvX_assign _ _ zero i l' old H3 Hgi Hwl') as (s3 & Hs3 & HI3 & _); [congruence|pw|].
      rewrite Hs3 in H. step_some H. exact HI3.
    + simpl in HWa. unfold destroy_lk in H. rewrite HWa in H. step_some H.
      eapply InvX_hold; [exact H2|]. intros. rewrite ow_not by auto. pw.
  - (* its swap *)
    destruct (get s a) as [[|srca la| | | ]|] eqn:Ea; try discriminate.
    destruct (get s b) as [[|srcb lb| | | ]|] eqn:Eb; try discriminate.
    assert (HWa := HG _ _ Ea). assert (HWb := HG _ _ Eb). step_some H.
    destruct (Nat.eq_dec a b) as [<-|Hne].
    + rewrite Ea in Eb. injection Eb as <- <-.
      assert (HK1 : forall i, kof (put s a (Some (OUp srca la))) i = kof s i) by (eapply kof_put_nonlock; eauto; discriminate).
      eapply Inv_put_nonlock with (x := zero) (o := OUp srca la); eauto; try discriminate.
      * eapply Inv_put_nonlock; eauto; discriminate.
      * now rewrite (get_put_same _ _ _ Ea).
      * eapply wfo_ext; [exact HK1|exact HWa].
    + set (s1 := put s b (Some (OUp None (lk_empty KU)))).
      assert (HK1 : forall i, kof s1 i = kof s i) by (eapply kof_put_nonlock; eauto; discriminate).
      set (s2 := put s1 a (Some (OUp srcb lb))).
      assert (Ga : get s1 a = Some (OUp srca la)) by (unfold s1; rewrite get_put_other; auto).
      assert (HK2 : forall i, kof s2 i = kof s i).
      { intros i. unfold s2. erewrite kof_put_nonlock; [apply HK1|exact Ga| |]; discriminate. }
      assert (HB : InvX s2 (ow la)).
      { eapply Inv_put_nonlock with (x := ow lb); [|exact Ga|discriminate|eapply wfo_ext; [exact HK1|exact HWb]|pw].
        eapply Inv_put_nonlock; eauto; try discriminate; try reflexivity; try solve [pw]. }
      assert (Hu : put (put s a (Some (OUp srcb lb))) b (Some (OUp srca la)) = put s2 b (Some (OUp srca la))).
      { unfold s2, s1, put. simpl. f_equal. clear - Hne. revert a b Hne.
        induction (s_objs s) as [|y l IH]; intros [|a] [|b] Hne; simpl; auto; try congruence.
        all: f_equal; first [now rewrite upd_upd|apply IH; congruence]. }
      rewrite Hu. eapply Inv_put_nonlock with (x := ow la); [exact HB| | |eapply wfo_ext; [exact HK2|exact HWa]|].
      * unfold s2. rewrite get_put_other by auto. eapply get_put_same. exact Eb.
      * discriminate.
      * pw.
  - (* guard *)
    assert (HN : InvX (set_hold (new s (OGuard k m)) (incr (s_hold s) m k)) zero).
    { change (InvX (new (set_hold s (incr (s_hold s) m k)) (OGuard k m)) zero).
      eapply InvX_new with (x := fun m' k' => ind (same m k m' k')); simpl; auto; try solve [pw].
      eapply InvX_hold; [exact HI|]. pw. }
    destruct k; try discriminate; destruct w; step_some H; auto.
  - (* adopting guard *)
    assert (HN : s_raw s m k <> 0 -> InvX (set_raw (new s (OGuard k m)) (decr (s_raw s) m k)) zero).
    { intros Er. change (InvX (new (set_raw s (decr (s_raw s) m k)) (OGuard k m)) zero).
      eapply InvX_new with (x := fun m' k' => ind (same m k m' k')); simpl; auto; try solve [pw].
      eapply InvX_raw; [exact HI|]. intros m' k'. pose proof (decr_eq (s_raw s) m k m' k' Er). pw. }
    destruct k; try discriminate; destruct (s_raw s m _ =? 0) eqn:Er; try discriminate; apply Nat.eqb_neq in Er; step_some H; auto.
  - (* reverse_lock *)
    destruct (get s a) as [[l| | | | ]|] eqn:Eg; try discriminate.
    destruct (kind_eqb (l_kind l) k) eqn:Ek; simpl in H; [|discriminate]. apply kind_eqb_true in Ek. simpl in Hok.
    assert (Hw : wfl l) by exact (HG _ _ Eg).
    assert (H1 : InvX (put s a (Some (OLock (lk_empty (l_kind l))))) (ow l)).
    { eapply Inv_put_lock; eauto; pw. }
    destruct (@InvX_destroy _ _ l H1 Hw (zero_le _)) as (h & Hh & Hd).
    change (s_hold (put s a (Some (OLock (lk_empty (l_kind l)))))) with (s_hold s) in *. rewrite Hh in H. step_some H.
    change (InvX (new (set_hold (put s a (Some (OLock (lk_empty (l_kind l))))) h) (ORev a (l_mx l))) zero).
    eapply InvX_new with (x := zero); [| |pw].
    + eapply InvX_hold; [exact H1|]. intros m' k'. specialize (Hd m' k'). pw.
    + cbn [wfo]. change (kof (put s a (Some (OLock (lk_empty (l_kind l))))) a = Some KU).
      erewrite kof_put_other_lock; eauto. rewrite (kof_get _ _ Eg). congruence.
  - (* nested_strict_lock *)
    destruct (get s a) as [[l| | | | ]|] eqn:Eg; try discriminate.
    assert (Hw : wfl l) by exact (HG _ _ Eg).
    destruct (l_mx l) as [m|] eqn:Em; [|step_some H; exact HI].
    assert (H1 : InvX (put s a (Some (OLock (lk_empty (l_kind l))))) (ow l)).
    { eapply Inv_put_lock; eauto; pw. }
    assert (HK1 : kof (put s a (Some (OLock (lk_empty (l_kind l))))) a = Some (l_kind l)).
    { erewrite kof_put_other_lock; eauto. now rewrite (kof_get _ _ Eg). }
    destruct (l_own l) eqn:Eo.
    + step_some H. eapply InvX_new with (x := ow l); [exact H1| |pw]. split; auto.
    + assert (HN : InvX (set_hold (new (put s a (Some (OLock (lk_empty (l_kind l))))) (ONest a (MkLk (l_kind l) (Some m) true)))
                                         (incr (s_hold s) m (l_kind l))) zero).
      { change (InvX (new (set_hold (put s a (Some (OLock (lk_empty (l_kind l))))) (incr (s_hold s) m (l_kind l))) (ONest a (MkLk (l_kind l) (Some m) true))) zero).
        eapply InvX_new with (x := ow (MkLk (l_kind l) (Some m) true)).
        - eapply InvX_hold; [exact H1|]. intros. rewrite (ow_not l) by auto. pw.
        - split; auto.
        - pw. }
      destruct w; step_some H; auto.
  - (* destructors *)
    destruct (existsb (refers a) (s_objs s)) eqn:Er; [discriminate|].
    destruct (get s a) as [o|] eqn:Eg; [|discriminate].
    assert (HW := HG _ _ Eg).
    assert (H1 : InvX (put s a None) (owo (Some o))).
    { eapply InvX_remove; eauto; pw. }
    assert (HKo : forall i k, refers a (Some o) = false -> i <> a -> kof s i = Some k -> kof (put s a None) i = Some k).
    { intros i k _ Hne. unfold kof. now rewrite get_put_other by congruence. }
    assert (Href := refers_false s a Er a Eg).
    destruct o as [l|[i|] l|k m|i [m|]|i l].
    + destruct (@InvX_destroy _ _ l H1 HW (zero_le _)) as (h & Hh & Hd).
      change (s_hold (put s a None)) with (s_hold s) in *. rewrite Hh in H. step_some H.
      eapply InvX_hold; [exact H1|]. intros m' k'. specialize (Hd m' k'). pw.
    + simpl in HW. destruct HW as (Hwl & Hkl & Hki).
      destruct (@InvX_conv _ _ l KG H1 Hwl (zero_le _)) as (l' & h & Hc & Hwl' & Hk' & _ & _ & He).
      change (s_hold (put s a None)) with (s_hold s) in *. rewrite Hc in H.
      assert (H3 : InvX (set_hold (put s a None) h) (ow l')).
      { eapply InvX_hold; [exact H1|]. intros m k. specialize (He m k). rewrite owo_up. simpl. lia. }
      simpl in Href. apply Nat.eqb_neq in Href.
      assert (Hgi : exists old, get (set_hold (put s a None) h) i = Some (OLock old) /\ l_kind old = KG).
      { apply kof_inv. change (kof (put s a None) i = Some KG). apply HKo; auto. simpl. now apply Nat.eqb_neq. }
      destruct Hgi as (old & Hgi & Hko).
      destruct (@InvX_assign _ _ zero i l' old H3 Hgi Hwl') as (s3 & Hs3 & HI3 & _); [congruence|pw|].
      rewrite Hs3 in H. step_some H. exact HI3.
    + simpl in HW. unfold destroy_lk in H. rewrite HW in H. step_some H.
      eapply InvX_hold; [exact H1|]. intros. rewrite owo_up, ow_not by auto. pw.
    + destruct (@InvX_mx_unlock _ _ m k H1 (fun _ _ => le_n _)) as (h & Hh & Hd).
      change (s_hold (put s a None)) with (s_hold s) in *. rewrite Hh in H. step_some H.
      eapply InvX_hold; [exact H1|]. intros m' k'. specialize (Hd m' k'). pw.
    + simpl in HW. simpl in Href. apply Nat.eqb_neq in Href.
      destruct (kof_inv _ _ HW) as (old & Hgi & Hko). rewrite Hgi in H.
      assert (H3 : InvX (set_hold (put s a None) (incr (s_hold s) m KU)) (ow (MkLk KU (Some m) true))).
      { eapply InvX_hold; [exact H1|]. intros. simpl. pw. }
      assert (Hg2 : get (set_hold (put s a None) (incr (s_hold s) m KU)) i = Some (OLock old)).
      { change (get (put s a None) i = Some (OLock old)). now rewrite get_put_other by congruence. }
      destruct (@InvX_assign _ _ zero i (MkLk KU (Some m) true) old H3 Hg2) as (s3 & Hs3 & HI3 & _); [auto|simpl; congruence|pw|].
      rewrite Hko, Hs3 in H. destruct w; step_some H; auto.
    + step_some H. eapply InvX_ext; [exact H1|]. pw.
    + simpl in HW. destruct HW as (Hwl & Hki). simpl in Href. apply Nat.eqb_neq in Href.
      assert (Hgi : exists old, get (put s a None) i = Some (OLock old) /\ l_kind old = l_kind l).
      { apply kof_inv. apply HKo; auto. simpl. now apply Nat.eqb_neq. }
      destruct Hgi as (old & Hgi & Hko).
      destruct (@InvX_assign _ _ zero i l old H1 Hgi Hwl) as (s3 & Hs3 & HI3 & _); [congruence|pw|].
      rewrite Hs3 in H. step_some H. exact HI3.
Qed.

(** ** Runs *)
Lemma Inv_init : InvX l_init zero.
Proof. split; [reflexivity|constructor]. Qed.

Lemma Inv_run ops s s' : InvX s zero -> Forall rev_unique ops -> lrun s ops = Some s' -> InvX s' zero.
Proof.
  revert s. induction ops as [|[op w] ops IH]; intros s HI Hf H; simpl in H.
  - injection H as <-. exact HI.
  - inversion Hf as [|y l H1 H2]; subst. destruct (lstep s op w) as [[s1 r]|] eqn:E; [|discriminate].
    assert (HI1 : InvX s1 zero).
    { apply (@Inv_step _ _ _ _ _ HI (match op return rev_unique (op, w) -> rev_ok op with LRev _ _ => fun h => h | _ => fun _ => I end H1) E). }
    destruct r; try discriminate; eauto.
Qed.

Lemma owners_sumw s m k : owners s m k = sumw (fun o => owo o m k) (s_objs s).
Proof.
  unfold owners. induction (s_objs s) as [|y l IH]; simpl; auto.
  unfold owo at 1. destruct (obj_owns m k y); simpl; unfold ind; lia.
Qed.

Lemma balanced ops s :
  Forall rev_unique ops -> lrun l_init ops = Some s -> forall m k, s_hold s m k = s_raw s m k + owners s m k.
Proof.
  intros Hf H m k. destruct (Inv_run Inv_init Hf H) as [Hb _].
  rewrite owners_sumw, Hb. unfold zero. lia.
Qed.

Lemma no_ub ops s op w s' r :
  Forall rev_unique ops -> lrun l_init ops = Some s -> rev_unique (op, w) -> lstep s op w = Some (s', r) -> r <> RUB.
Proof.
  intros Hf H Hr Hs. assert (HI := Inv_run Inv_init Hf H).
  assert (Hok : rev_ok op) by (destruct op; exact Hr || exact I).
  apply (@Inv_step _ _ _ _ _ HI Hok Hs).
Qed.

Lemma assign_raw s a l s' r : assign s a l = Some (s', r) -> s_raw s' = s_raw s.
Proof.
  unfold assign. destruct (get s a) as [[old| | | | ]|]; try discriminate.
  destruct (destroy_lk old (s_hold s)); injection 1 as <- <-; reflexivity.
Qed.

Ltac brk H :=
  repeat match type of H with
         | None = Some _ => discriminate H
         | Some _ = Some _ => injection H as <- <-
         | assign _ _ _ = Some _ => apply assign_raw in H; exact H
         | context [match ?x with _ => _ end] => let E := fresh "E" in destruct x eqn:E
         end.

Lemma raw_step s op w s' r :
  lstep s op w = Some (s', r) -> no_manual (op, w) -> (forall m k, s_raw s m k = 0) -> forall m k, s_raw s' m k = 0.
Proof.
  intros H Hn Hz.
  assert (Hq : s_raw s' = s_raw s).
  { destruct op; cbn [lstep] in H; try contradiction; rewrite ?Hz in H; simpl in H; brk H; try reflexivity. }
  intros. now rewrite Hq.
Qed.

Lemma raw_run ops s s' :
  lrun s ops = Some s' -> Forall no_manual ops -> (forall m k, s_raw s m k = 0) -> forall m k, s_raw s' m k = 0.
Proof.
  revert s. induction ops as [|[op w] ops IH]; intros s H Hf Hz; simpl in H.
  - injection H as <-. exact Hz.
  - inversion Hf as [|y l H1 H2]; subst. destruct (lstep s op w) as [[s1 r]|] eqn:E; [|discriminate].
    pose proof (raw_step _ _ _ E H1 Hz). destruct r; try discriminate; eauto.
Qed.

Lemma owners_destroyed s m k : all_destroyed s -> owners s m k = 0.
Proof.
  unfold all_destroyed, owners. induction 1 as [|y l -> _ IH]; simpl; auto.
Qed.

Lemma released_at_end ops s :
  Forall rev_unique ops -> lrun l_init ops = Some s -> all_destroyed s ->
  (forall m k, s_hold s m k = s_raw s m k) /\
  (Forall no_manual ops -> forall m k, s_hold s m k = 0).
Proof.
  intros Hf H Hd. split.
  - intros m k. rewrite (balanced Hf H). rewrite owners_destroyed by auto. lia.
  - intros Hn m k. rewrite (balanced Hf H), owners_destroyed by auto.
    rewrite (@raw_run _ _ _ H Hn); auto.
Qed.

(** ** Failing operations change nothing *)
Lemma assign_unit s a l s' r : assign s a l = Some (s', r) -> r = RUnit \/ r = RUB.
Proof.
  unfold assign. destruct (get s a) as [[old| | | | ]|]; try discriminate.
  destruct (destroy_lk old (s_hold s)); injection 1 as <- <-; auto.
Qed.

Ltac brk2 H :=
  repeat match type of H with
         | None = Some _ => discriminate H
         | Some _ = Some _ => injection H as <- <-
         | assign _ _ _ = Some _ => apply assign_unit in H; destruct H as [-> | ->]
         | context [match ?x with _ => _ end] => let E := fresh "E" in destruct x eqn:E
         end.

Definition throws (r : lres) : bool := match r with RPerm | RDeadlk | RMx => true | _ => false end.

Lemma strong_guarantee s op w s' r : lstep s op w = Some (s', r) -> throws r = true -> s' = s.
Proof.
  intros H Ht. destruct op; cbn [lstep] in H; brk2 H; try reflexivity; try discriminate Ht.
Qed.

(** ** Destruction is always possible *)
Lemma destroyable ops s a o :
  Forall rev_unique ops -> lrun l_init ops = Some s -> get s a = Some o ->
  (forall b o', get s b = Some o' -> refers a (Some o') = false) ->
  exists s', lstep s (LDestroy a) AOk = Some (s', RUnit) /\ get s' a = None.
Proof.
  intros Hf H Hg Hr. assert (HI := Inv_run Inv_init Hf H).
  assert (Er : existsb (refers a) (s_objs s) = false).
  { destruct (existsb (refers a) (s_objs s)) eqn:E; auto. apply existsb_exists in E as (y & Hin & Hy).
    apply In_nth_error in Hin as [b Hb]. destruct y as [o'|]; [|discriminate].
    rewrite (Hr b o') in Hy; [discriminate|]. unfold get. now rewrite Hb. }
  cbn [lstep]. rewrite Er, Hg.
  assert (HW := Inv_get a HI Hg).
  assert (H1 : InvX (put s a None) (owo (Some o))).
  { eapply InvX_remove; eauto; pw. }
  assert (Href := Hr a o Hg).
  assert (Gn : get (put s a None) a = None) by exact (get_put_same s a None Hg).
  assert (HKo : forall i k, i <> a -> kof s i = Some k -> kof (put s a None) i = Some k).
  { intros i k Hne. unfold kof. now rewrite get_put_other by congruence. }
  assert (Ass : forall s1 x i l, InvX s1 x -> (forall m k, x m k = ow l m k + zero m k) -> wfl l -> get s1 a = None ->
            i <> a -> kof s1 i = Some (l_kind l) -> exists s', assign s1 i l = Some (s', RUnit) /\ get s' a = None).
  { intros s1 x i l HX Hx Hwl Hn Hne Hki. apply kof_inv in Hki as (old & Hgo & Hko).
    destruct (@InvX_assign _ _ zero i l old HX Hgo Hwl (eq_sym Hko) Hx) as (s3 & Hs3 & _ & _ & Hoth & _).
    exists s3. split; auto. rewrite Hoth by congruence. exact Hn. }
  destruct o as [l|[i|] l|k m|i [m|]|i l].
  - destruct (@InvX_destroy _ _ l H1 HW (zero_le _)) as (h & Hh & _).
    change (s_hold (put s a None)) with (s_hold s) in Hh. rewrite Hh. eexists. split; [reflexivity|exact Gn].
  - simpl in HW. destruct HW as (Hwl & Hkl & Hki). simpl in Href. apply Nat.eqb_neq in Href.
    destruct (@InvX_conv _ _ l KG H1 Hwl (zero_le _)) as (l' & h & Hc & Hwl' & Hk' & _ & _ & He).
    change (s_hold (put s a None)) with (s_hold s) in *. rewrite Hc.
    assert (Hia : i <> a) by congruence. eapply Ass with (x := ow l'); auto.
    + eapply InvX_hold; [exact H1|]. intros m k. specialize (He m k). rewrite owo_up. simpl. lia.
    + change (kof (put s a None) i = Some (l_kind l')). rewrite Hk'. auto.
  - simpl in HW. unfold destroy_lk. rewrite HW. eexists. split; [reflexivity|exact Gn].
  - destruct (@InvX_mx_unlock _ _ m k H1 (fun _ _ => le_n _)) as (h & Hh & _).
    change (s_hold (put s a None)) with (s_hold s) in Hh. rewrite Hh. eexists. split; [reflexivity|exact Gn].
  - simpl in HW. simpl in Href. apply Nat.eqb_neq in Href.
    destruct (kof_inv _ _ HW) as (old & Hgi & Hko). rewrite Hgi.
    rewrite Hko. assert (Hia : i <> a) by congruence. eapply Ass with (x := ow (MkLk KU (Some m) true)); auto.
    + eapply InvX_hold; [exact H1|]. intros. simpl. pw.
    + change (kof (put s a None) i = Some KU). auto.
  - eexists. split; [reflexivity|exact Gn].
  - simpl in HW. destruct HW as (Hwl & Hki). simpl in Href. apply Nat.eqb_neq in Href.
    assert (Hia : i <> a) by congruence. eapply Ass; [exact H1| |auto|exact Gn|auto|auto]; pw.
Qed.

(** ** Misuse *)
Lemma owns_mutex ops s a k mx : Forall rev_unique ops -> lrun l_init ops = Some s -> is_lock s a k mx true -> mx <> None.
Proof.
  intros Hf H Hl. assert (HI := Inv_run Inv_init Hf H).
  exact (Inv_get a HI Hl eq_refl).
Qed.

(** ** reverse_lock *)
Lemma rev_ctor s a k mx own w s1 r :
  is_lock s a k mx own -> lstep s (LRev k a) w = Some (s1, r) -> r <> RUB ->
  r = RUnit /\ is_lock s1 a k None false /\ get s1 (length (s_objs s)) = Some (ORev a mx).
Proof.
  intros Hl H Hn. unfold is_lock in *. cbn [lstep] in H. rewrite Hl in H. cbn [l_kind l_mx] in H.
  assert (Ek : kind_eqb k k = true) by now destruct k. rewrite Ek in H. simpl in H.
  destruct (destroy_lk (MkLk k mx own) (s_hold s)) as [h|]; injection H as <- <-; [|congruence].
  split; [reflexivity|]. split.
  - change (get (new (put s a (Some (OLock (lk_empty k)))) (ORev a mx)) a = Some (OLock (lk_empty k))).
    apply get_new_old. exact (get_put_same s a _ Hl).
  - unfold get. simpl. rewrite nth_error_app2; rewrite upd_length; [|lia]. now rewrite Nat.sub_diag.
Qed.

Lemma rev_dtor s a r k m w s' res :
  is_lock s a k None false -> get s r = Some (ORev a (Some m)) ->
  lstep s (LDestroy r) w = Some (s', res) -> res <> RTerm ->
  res = RUnit /\ is_lock s' a k (Some m) true.
Proof.
  intros Hl Hr H Hn. unfold is_lock in *. cbn [lstep] in H.
  destruct (existsb (refers r) (s_objs s)); [discriminate|]. rewrite Hr, Hl in H.
  assert (Hra : r <> a) by congruence.
  assert (Hg : forall h, get (set_hold (put s r None) h) a = Some (OLock (lk_empty k))).
  { intros h. change (get (put s r None) a = Some (OLock (lk_empty k))). now rewrite get_put_other. }
  destruct w; [| |injection H as <- <-; congruence];
    unfold assign in H; rewrite Hg in H; cbn in H; injection H as <- <-; (split; [reflexivity|]);
    exact (get_put_same (put s r None) a (Some (OLock (MkLk k (Some m) true))) (Hg (s_hold s))).
Qed.

Lemma rev_dtor_none s a r k w s' res :
  is_lock s a k None false -> get s r = Some (ORev a None) ->
  lstep s (LDestroy r) w = Some (s', res) -> res = RUnit /\ is_lock s' a k None false.
Proof.
  intros Hl Hr H. unfold is_lock in *. cbn [lstep] in H.
  destruct (existsb (refers r) (s_objs s)); [discriminate|]. rewrite Hr in H. injection H as <- <-.
  split; [reflexivity|]. rewrite get_put_other; congruence.
Qed.

Lemma nest_ctor s a k mx own w s1 r :
  is_lock s a k mx own -> lstep s (LNest a) w = Some (s1, r) -> throws r = false ->
  r = RUnit /\ is_lock s1 a k None false /\ mx <> None /\ get s1 (length (s_objs s)) = Some (ONest a (MkLk k mx true)).
Proof.
  intros Hl H Hn. unfold is_lock in *. cbn [lstep] in H. rewrite Hl in H. cbn [l_kind l_mx l_own] in H.
  destruct mx as [m|]; [|injection H as <- <-; discriminate].
  assert (Hok : forall o h, get (set_hold (new (put s a (Some (OLock (lk_empty k)))) o) h) a = Some (OLock (lk_empty k)) /\
    get (set_hold (new (put s a (Some (OLock (lk_empty k)))) o) h) (length (s_objs s)) = Some o).
  { intros o h. split.
    - change (get (new (put s a (Some (OLock (lk_empty k)))) o) a = Some (OLock (lk_empty k))).
      apply get_new_old. exact (get_put_same s a _ Hl).
    - unfold get. simpl. rewrite nth_error_app2; rewrite upd_length; [|lia]. now rewrite Nat.sub_diag. }
  destruct own; [|destruct w]; injection H as <- <-; try discriminate.
  - destruct (Hok (ONest a (MkLk k (Some m) true)) (s_hold s)). repeat split; auto. discriminate.
  - destruct (Hok (ONest a (MkLk k (Some m) true)) (incr (s_hold s) m k)). repeat split; auto. discriminate.
  - destruct (Hok (ONest a (MkLk k (Some m) true)) (incr (s_hold s) m k)). repeat split; auto. discriminate.
Qed.

Lemma nest_dtor s a r l w s' res :
  is_lock s a (l_kind l) None false -> get s r = Some (ONest a l) ->
  lstep s (LDestroy r) w = Some (s', res) ->
  res = RUnit /\ get s' a = Some (OLock l) /\ s_hold s' = s_hold s.
Proof.
  intros Hl Hr H. unfold is_lock in *. cbn [lstep] in H.
  destruct (existsb (refers r) (s_objs s)); [discriminate|]. rewrite Hr in H.
  assert (Hra : r <> a) by congruence.
  assert (Hg : get (put s r None) a = Some (OLock (lk_empty (l_kind l)))) by now rewrite get_put_other.
  unfold assign in H. rewrite Hg in H. cbn in H. injection H as <- <-. split; [reflexivity|]. split; [|reflexivity].
  exact (get_put_same (put s r None) a (Some (OLock l)) Hg).
Qed.
