(** * pthread/once.hpp: the invariant (proofs) *)
From Coq Require Import List Arith Lia Bool.
Import ListNotations.
From Verif Require Import OM_Model OM_Spec OM_Frames OM_Views OM_Atomic.

(** What is seen: by the thread that has taken the flag; by the owner of the mutex, or left there by the last
    one; by a thread that is about to return; and by a thread whose epoch says so. *)
Record XI (s : st) (ow : nat -> option nat) : Prop := {
  x_own : forall g t, ow g = Some t -> sees_all g (v_see (vw s t)) (log s);
  x_cur : forall g, ow g = None -> sees_all g (v_see (cur s)) (log s);
  x_ret : forall t g, In (FUnl g NRet) (stk s t) -> sees_all g (v_see (vw s t)) (log s);
  x_epo : forall t g, epo s t <= val (mem s) g -> sees_all g (v_see (vw s t)) (log s) }.

(** The epochs: [G] are the complete flags. *)
Record NI (W : nat) (s : st) : Prop := {
  n_glob : 2 <= glob s;
  n_epo : forall t, glob s <= epo s t;
  n_cnt : exists G, NoDup G /\ (forall g, In g G -> 2 <= val (mem s) g) /\ glob s + 1 + length G = W }.

Definition EI (W : nat) (s : st) : Prop :=
  exists ow, FI (val (mem s)) ow (stk s) (log s) /\ MI (mem s) (vw s) (mxv s) /\ HI s /\
    XI s ow /\ NI W s /\ promises (log s).

Lemma in_completions : forall h G, NoDup G -> (forall g, In g G -> completed g h) -> length G <= completions h.
Proof.
  intros h G N C.
  set (k := fun x => match x with EvEnd _ _ _ true => true | _ => false end).
  set (fl := fun x => match x with EvEnd _ g _ _ => g | _ => 0 end).
  unfold completions. fold k. rewrite <- (map_length fl (filter k h)). apply NoDup_incl_length; auto.
  intros g H. destruct (C _ H) as (t & e & K). apply in_map_iff. exists (EvEnd t g e true). split; auto.
  apply filter_In. split; auto.
Qed.

(** A step that leaves the writes alone. *)
Lemma XI_put : forall s ow t v fs h' (hd : option nat) (mx : view) ne gl,
  XI s ow -> same_ends (log s) h' -> incl (v_see (vw s t)) (v_see v) ->
  (forall g, In (FUnl g NRet) fs -> In (FUnl g NRet) (stk s t) \/ sees_all g (v_see v) (log s)) ->
  incl (v_see (cur s)) (v_see (match hd with Some u => upd (vw s) t v u | None => mx end)) ->
  XI (MkSt (mem s) hd mx (upd (vw s) t v) (upd (stk s) t fs) h' ne gl (epo s)) ow.
Proof.
  intros s ow t v fs h' hd mx ne gl X N L F C. constructor; cbn [mem hold mxv vw stk log nexte glob epo].
  - intros g u K. upd_cases u t; eapply sees_mono; eauto using incl_refl; now apply (x_own _ _ X).
  - intros g K. unfold cur. cbn [hold vw mxv]. eapply sees_mono; eauto. now apply (x_cur _ _ X).
  - intros u g K. upd_cases u t.
    + destruct (F _ K) as [Q|Q]; eapply sees_mono; eauto using incl_refl; now apply (x_ret _ _ X).
    + eapply sees_mono; eauto using incl_refl; now apply (x_ret _ _ X).
  - intros u g K. upd_cases u t; eapply sees_mono; eauto using incl_refl; now apply (x_epo _ _ X).
Qed.

Lemma one_ret : forall (S : nat -> list frame) t f b r (Q : nat -> Prop), S t = f :: r ->
  (forall g, In (FUnl g NRet) b -> Q g) -> forall g, In (FUnl g NRet) (b ++ r) -> In (FUnl g NRet) (S t) \/ Q g.
Proof.
  intros S t f b r Q E B g H. apply in_app_or in H. destruct H as [H|H]; auto. left. rewrite E. now right.
Qed.

Lemma cur_grows : forall s t v, incl (v_see (vw s t)) (v_see v) ->
  incl (v_see (cur s)) (v_see (match hold s with Some u => upd (vw s) t v u | None => mxv s end)).
Proof.
  intros s t v L. unfold cur. destruct (hold s) as [u|]; [|apply incl_refl]. upd_cases u t; auto. apply incl_refl.
Qed.
Lemma cur_held : forall s t, HI s -> crit (stk s t) = true -> cur s = vw s t.
Proof. intros s t H C. apply (h_hold _ H) in C. unfold cur. now rewrite C. Qed.

Local Hint Resolve neutral_refl neutral_ret neutral_throw same_neutral same_start incl_refl : om.

Lemma NI_same : forall W s s', NI W s -> mem s' = mem s -> glob s' = glob s -> epo s' = epo s -> NI W s'.
Proof. intros W s s' [A B C] E1 E2 E3. constructor; rewrite ?E1, ?E2, ?E3; auto. Qed.

Lemma fs_crit : forall val ow (S : nat -> list frame) h t f r, FI val ow S h -> S t = f :: r -> crit r = false.
Proof.
  intros val0 ow S h t f r F E. destruct r as [|x r]; auto.
  destruct (f_tail _ _ _ _ F _ _ _ E x) as (? & ? & ->); [now left|]. reflexivity.
Qed.

Lemma fin_epoch : forall W s t g m, MI (mem s) (vw s) (mxv s) -> NI W s -> reads (mem s g) (vw s t) g m ->
  epo s t <= m_val m -> m_val m = val (mem s) g /\ 2 <= m_val m.
Proof.
  intros W s t g m M N (R & _) L. pose proof (n_glob _ _ N). pose proof (n_epo _ _ N t).
  assert (2 <= m_val m) by lia. split; auto. eapply fin_is; eauto.
Qed.

(** A write to the flag [g] by the owner of the mutex. *)
Lemma NI_wr : forall W s s' g m, NI W s -> mem s' = upd (mem s) g (m :: mem s g) -> glob s' = glob s -> epo s' = epo s ->
  val (mem s) g < 2 -> NI W s'.
Proof.
  intros W s s' g m [A B (G & C1 & C2 & C3)] E1 E2 E3 L. constructor; rewrite ?E1, ?E2, ?E3; auto.
  exists G. repeat split; auto. intros k K. rewrite val_upd. upd_cases k g; auto. apply C2 in K. lia.
Qed.

Lemma EI_step : forall W s s', EI W s -> estep W s s' -> completions (log s') + 3 <= W -> EI W s'.
Proof.
  intros W s s' (ow & F & M & H & X & N & P) T B. destruct T.
  - exists ow. split; [eapply user_FI; eauto|]. split; [eapply user_MI; eauto|]. split; [eapply user_HI; eauto|].
    split; [|split; [|eapply user_promises; eauto]].
    + destruct H0.
      * apply (XI_put s ow t _ (FStart g :: stk s t) (log s) (hold s) (mxv s) (nexte s) (glob s) X); auto with om;
          [intros k [K|K]; [discriminate|auto]|apply cur_grows; auto with om].
      * apply (XI_put s ow t _ (stk s t) (log s) (hold s) (mxv s) (nexte s) (glob s) X); auto with om;
          [cbn; apply incl_appl, incl_refl|apply cur_grows; cbn; apply incl_appl, incl_refl].
      * rename H0 into E. destruct (own_one _ _ _ _ F t g _ _ E (Nat.eqb_refl g)) as (Wn & _).
        pose proof (f_some _ _ _ _ F _ _ Wn) as V1.
        assert (G : forall k (x y : list nat), k <> g -> incl x y -> sees_all k x (log s) -> sees_all k y (EvEnd t g e ok :: log s)).
        { intros k x y D L K u f b [Q|Q]; [congruence|]. apply L. now apply (K u f b). }
        assert (L : forall u, incl (v_see (vw s u)) (v_see (upd (vw s) t (see (vw s t) e) u))).
        { intros u. upd_cases u t; [cbn; apply incl_tl, incl_refl|apply incl_refl]. }
        constructor; cbn [mem hold mxv vw stk log nexte glob epo put say].
        -- intros k u K. destruct (Nat.eq_dec k g) as [->|D].
           ++ rewrite Wn in K. injection K as <-. rewrite upd_eq.
              intros u e' ok' [Q|Q]; [injection Q as <- <- <-; now left|]. right. now apply (x_own _ _ X _ _ Wn u e' ok').
           ++ eapply G; eauto. now apply (x_own _ _ X).
        -- intros k K. assert (D : k <> g) by congruence. eapply G; [auto| |apply (x_cur _ _ X _ K)].
           unfold cur. cbn [hold vw mxv put say]. destruct (hold s); auto with om.
        -- intros u k K.
           assert (Q : In (FUnl k NRet) (stk s u)).
           { upd_cases u t; auto. rewrite E. destruct K as [K|K]; [discriminate|now right]. }
           assert (D : k <> g).
           { intros ->. apply (f_fr _ _ _ _ F) in Q. cbn in Q. lia. }
           eapply G; eauto. now apply (x_ret _ _ X).
        -- intros u k K. assert (D : k <> g).
           { intros ->. pose proof (n_glob _ _ N). pose proof (n_epo _ _ N u). lia. }
           eapply G; eauto. now apply (x_epo _ _ X).
    + destruct H0; eapply NI_same; eauto.
  - (* fast *)
    rename H0 into E. destruct (fin_epoch _ _ _ _ _ M N H1 H2) as (FV & F2). rewrite FV in *.
    exists ow. split; [|split; [|split; [|split; [|split]]]]; cbs.
    + one F E (@nil frame).
    + apply MI_put; auto. intros k. eapply rview_le; eauto. apply H1.
    + apply HI_say, HI_put; auto using rview_ge. rewrite E. cbn. eapply fs_crit; eauto.
    + apply (XI_put s ow t); cbs; auto using rview_see, cur_grows with om.
      apply (one_ret _ _ _ [] r _ E). intros k [].
    + eapply NI_same; eauto.
    + apply promises_ret; auto.
      * now apply (f_fin _ _ _ _ F).
      * eapply sees_mono; [apply (x_epo _ _ X t g H2)|apply rview_see|intros ? ? ? ?; auto].
  - (* slow *)
    rename H0 into E. exists ow. split; [|split; [|split; [|split; [|split]]]]; cbs.
    + one F E [FLock g].
    + apply MI_put; auto. intros k. eapply rview_le; eauto. apply H1.
    + apply HI_put; auto using rview_ge. now rewrite E.
    + apply (XI_put s ow t); cbs; auto using rview_see, cur_grows with om.
      apply (one_ret _ _ _ [FLock g] r _ E). intros k [K|[]]; discriminate.
    + eapply NI_same; eauto.
    + auto.
  - (* lock *)
    rename H0 into E. exists ow. split; [|split; [|split; [|split; [|split]]]]; cbs.
    + one F E [FChk g].
    + apply MI_put; auto. intros k. apply join_le; apply M.
    + apply HI_take; auto. intros k. cbn. lia.
    + apply (XI_put s ow t); cbs; auto with om; [cbn; apply incl_appl, incl_refl| |].
      * apply (one_ret _ _ _ [FChk g] r _ E). intros k [K|[]]; discriminate.
      * rewrite upd_eq. unfold cur. rewrite H1. cbn. apply incl_appr, incl_refl.
    + eapply NI_same; eauto.
    + auto.
  - (* the flag is taken *)
    rename H0 into E. assert (C : crit (stk s t) = true) by now rewrite E.
    destruct (holder_top _ _ _ _ M H C H1) as (T1 & T2 & T3). destruct H3 as (L & _).
    assert (Wn : ow g = None) by (destruct (ow g) as [u|] eqn:Wn; auto; rewrite (f_some _ _ _ _ F _ _ Wn) in T2; congruence).
    assert (TL : top (mem s) g < n).
    { pose proof (h_cur _ H g) as K. rewrite (cur_held _ _ H C) in K. pose proof (rview_ge Relaxed (vw s t) g m g). lia. }
    exists (upd ow g (Some t)). split; [|split; [|split; [|split; [|split]]]]; cbs.
    + eapply FI_ext; [intros k; symmetry; apply val_upd|]. cbn [m_val wmsg]. eapply FI_take; eauto. congruence.
    + apply MI_wr; auto; [|lia]. intros k. eapply rview_le; eauto. apply H1.
    + eapply HI_wr; eauto; [|rewrite raise_eq; cbn [m_ts wmsg]; lia].
      intros k. pose proof (rview_ge Relaxed (vw s t) g m k). pose proof (raise_ge (rview Relaxed (vw s t) g m) g n k). lia.
    + assert (X' : XI (MkSt (mem s) (hold s) (mxv s) (upd (vw s) t (raise (rview Relaxed (vw s t) g m) g n)) (upd (stk s) t (FUnl g NRun :: r))
                       (log s) (nexte s) (glob s) (epo s)) ow).
      { apply (XI_put s ow t); cbs; auto with om; [|apply cur_grows, (rview_see Relaxed)].
        apply (one_ret _ _ _ [FUnl g NRun] r _ E). intros k [K|[]]; discriminate. }
      constructor; cbs.
      * intros k u K. destruct (Nat.eq_dec k g) as [->|D].
        -- rewrite upd_eq in K. injection K as <-. pose proof (x_cur _ _ X' _ Wn) as Q. unfold cur in Q. cbn [hold vw mxv] in Q.
           rewrite (proj1 (h_hold _ H t) C) in Q. exact Q.
        -- rewrite upd_ne in K by auto. exact (x_own _ _ X' k u K).
      * intros k K. destruct (Nat.eq_dec k g) as [->|D]; [rewrite upd_eq in K; discriminate|].
        rewrite upd_ne in K by auto. exact (x_cur _ _ X' k K).
      * exact (x_ret _ _ X').
      * intros u k K. rewrite val_upd in K. destruct (Nat.eq_dec k g) as [->|D].
        -- rewrite upd_eq in K. cbn in K. unfold being_initialized in K. pose proof (n_glob _ _ N). pose proof (n_epo _ _ N u). lia.
        -- rewrite upd_ne in K by auto. exact (x_epo _ _ X' u k K).
    + eapply NI_wr; [exact N|reflexivity..|]. lia.
    + auto.
  - (* wait *)
    rename H0 into E. assert (C : crit (stk s t) = true) by now rewrite E.
    assert (L : forall k, v_ts (rview Relaxed (vw s t) g m) k <= top (mem s) k) by (intros k; eapply rview_le; eauto; apply H1).
    exists ow. split; [|split; [|split; [|split; [|split]]]]; cbs.
    + one F E [FWait g].
    + eapply MI_mx; [apply MI_put; eauto|auto].
    + apply HI_give; auto using rview_ge.
    + apply (XI_put s ow t); cbs; auto using rview_see with om.
      * apply (one_ret _ _ _ [FWait g] r _ E). intros k [K|[]]; discriminate.
      * rewrite (cur_held _ _ H C). apply rview_see.
    + eapply NI_same; eauto.
    + auto.
  - (* wake up *)
    rename H0 into E. exists ow. split; [|split; [|split; [|split; [|split]]]]; cbs.
    + one F E [FChk g].
    + apply MI_put; auto. intros k. apply join_le; apply M.
    + apply HI_take; auto. intros k. cbn. lia.
    + apply (XI_put s ow t); cbs; auto with om; [cbn; apply incl_appl, incl_refl| |].
      * apply (one_ret _ _ _ [FChk g] r _ E). intros k [K|[]]; discriminate.
      * rewrite upd_eq. unfold cur. rewrite H1. cbn. apply incl_appr, incl_refl.
    + eapply NI_same; eauto.
    + auto.
  - (* the flag is complete *)
    rename H0 into E. assert (C : crit (stk s t) = true) by now rewrite E.
    destruct (holder_top _ _ _ _ M H C H1) as (T1 & T2 & T3). unfold being_initialized in H2.
    assert (Q : forall k, 2 <= val (mem s) k -> sees_all k (v_see (rview Relaxed (vw s t) g m)) (log s)).
    { intros k K. pose proof (x_cur _ _ X k (fin_not_owned _ _ _ _ F k K)) as Z. rewrite (cur_held _ _ H C) in Z.
      eapply sees_mono; eauto using rview_see. intros ? ? ? ?; auto. }
    exists ow. split; [|split; [|split; [|split; [|split]]]]; cbs.
    + one F E [FUnl g NRet]. lia.
    + apply MI_put; auto. intros k. eapply rview_le; eauto. apply H1.
    + destruct (HI_put s t (rview Relaxed (vw s t) g m) (FUnl g NRet :: r) H) as [Z1 Z2]; [now rewrite E|apply rview_ge|]. constructor; auto.
    + assert (X' : XI (MkSt (mem s) (hold s) (mxv s) (upd (vw s) t (rview Relaxed (vw s t) g m)) (upd (stk s) t (FUnl g NRet :: r))
                       (log s) (nexte s) (glob s) (epo s)) ow).
      { apply (XI_put s ow t); cbs; auto using rview_see, cur_grows with om.
        apply (one_ret _ _ _ [FUnl g NRet] r _ E). intros k [K|[]]. injection K as <-. apply Q. lia. }
      constructor; cbs; [exact (x_own _ _ X')|exact (x_cur _ _ X')|exact (x_ret _ _ X')|].
      intros u k K. destruct (Nat.eq_dec u t) as [->|D].
      * rewrite upd_eq in *. apply Q. pose proof (n_glob _ _ N). lia.
      * rewrite upd_ne in K by auto. exact (x_epo _ _ X' u k K).
    + destruct N as [N1 N2 N3]. constructor; cbs; auto. intros u. destruct (Nat.eq_dec u t) as [->|D]; [now rewrite upd_eq|now rewrite upd_ne].
    + auto.
  - (* the function is called *)
    rename H0 into E. assert (C : crit (stk s t) = true) by now rewrite E.
    destruct (own_one _ _ _ _ F t g _ _ E (Nat.eqb_refl g)) as (Wn & _).
    exists ow. split; [|split; [|split; [|split; [|split]]]]; cbs.
    + now apply FI_start.
    + eapply MI_mx; [apply MI_put; eauto; apply M|apply M].
    + apply HI_say, HI_count. apply (HI_give s t (vw s t) (FBody g (nexte s) :: r)); auto.
    + apply (XI_put s ow t); cbs; auto with om.
      * apply (one_ret _ _ _ [FBody g (nexte s)] r _ E). intros k [K|[]]; discriminate.
      * rewrite (cur_held _ _ H C). apply incl_refl.
    + eapply NI_same; eauto.
    + eapply promises_start; eauto. now apply (x_own _ _ X).
  - (* return *)
    rename H0 into E. assert (C : crit (stk s t) = true) by now rewrite E.
    assert (K : In (FUnl g NRet) (stk s t)) by (rewrite E; now left).
    exists ow. split; [|split; [|split; [|split; [|split]]]]; cbs.
    + one F E (@nil frame).
    + eapply MI_mx; [apply MI_put; eauto; apply M|apply M].
    + apply HI_say. apply (HI_give s t (vw s t) r); auto. eapply fs_crit; eauto.
    + apply (XI_put s ow t); cbs; auto with om.
      * apply (one_ret _ _ _ [] r _ E). intros k [].
      * rewrite (cur_held _ _ H C). apply incl_refl.
    + eapply NI_same; eauto.
    + apply promises_ret; auto; [|now apply (x_ret _ _ X)]. apply (f_fin _ _ _ _ F). now apply (f_fr _ _ _ _ F) in K.
  - (* the exception goes on *)
    rename H0 into E. assert (C : crit (stk s t) = true) by now rewrite E.
    exists ow. split; [|split; [|split; [|split; [|split]]]]; cbs.
    + one F E (@nil frame).
    + eapply MI_mx; [apply MI_put; eauto; apply M|apply M].
    + apply HI_say. apply (HI_give s t (vw s t) r); auto. eapply fs_crit; eauto.
    + apply (XI_put s ow t); cbs; auto with om.
      * apply (one_ret _ _ _ [] r _ E). intros k [].
      * rewrite (cur_held _ _ H C). apply incl_refl.
    + eapply NI_same; eauto.
    + now apply promises_throw.
  - (* lock after the function *)
    rename H0 into E. assert (K : frame_ok (val (mem s)) (log s) (FDone g e ok)) by (apply (f_fr _ _ _ _ F t); rewrite E; now left).
    exists ow. split; [|split; [|split; [|split; [|split]]]]; cbs.
    + one F E [FStore g ok].
    + apply MI_put; auto. intros k. apply join_le; apply M.
    + apply HI_take; auto. intros k. cbn. lia.
    + apply (XI_put s ow t); cbs; auto with om; [cbn; apply incl_appl, incl_refl| |].
      * apply (one_ret _ _ _ [FStore g ok] r _ E). intros k [Q|[]]; discriminate.
      * rewrite upd_eq. unfold cur. rewrite H1. cbn. apply incl_appr, incl_refl.
    + eapply NI_same; eauto.
    + auto.
  - (* commit *)
    rename H0 into E. assert (C : crit (stk s t) = true) by now rewrite E.
    destruct H1 as (L & _). pose proof (proj1 (h_hold _ H t) C) as Hd. pose proof (h_cur _ H g) as Q. rewrite (cur_held _ _ H C) in Q.
    destruct (own_one _ _ _ _ F t g _ _ E (Nat.eqb_refl g)) as (Wn & _). pose proof (f_some _ _ _ _ F _ _ Wn) as V1.
    assert (K : completed g (log s)) by (apply (f_fr _ _ _ _ F t (FStore g true)); rewrite E; now left).
    destruct N as [N1 N2 (G & N3 & N4 & N5)].
    assert (ED : edec W (glob s) = glob s - 1) by (unfold edec; destruct (glob s); lia).
    assert (G' : NoDup (g :: G)) by (constructor; auto; intros Z; apply N4 in Z; lia).
    assert (LG : length (g :: G) <= completions (log s)).
    { apply in_completions; auto. intros k [<-|Z]; auto. apply (f_fin _ _ _ _ F). now apply N4. }
    assert (G2 : 2 <= glob s - 1) by (cbn [log put wr set_glob] in B; cbn [length] in LG; lia).
    rewrite ED in *. clear ED.
    exists (upd ow g None). split; [|split; [|split; [|split; [|split]]]]; cbs.
    + eapply FI_ext; [intros k; symmetry; apply val_upd|]. cbn [m_val wmsg].
      apply (FI_store _ _ _ _ F t g (FStore g true) r [FChk g] (glob s - 1) (log s)); auto with om.
      * apply Nat.eqb_refl.
      * discriminate.
      * eapply tail_ok; eauto.
      * intros f [<-|[]]. exact I.
    + apply MI_wr; auto; [apply M|lia|lia].
    + destruct (HI_wr s t (raise (vw s t) g n) (FChk g :: r) g n (wmsg Relaxed (vw s t) g n (glob s - 1)) H C) as [Z1 Z2]; auto;
        [apply raise_ge|rewrite raise_eq; lia|]. constructor; auto.
    + constructor; cbs.
      * intros k u Z. destruct (Nat.eq_dec k g) as [->|D]; [rewrite upd_eq in Z; discriminate|]. rewrite upd_ne in Z by auto.
        upd_cases u t; exact (x_own _ _ X _ _ Z).
      * intros k Z. unfold cur. cbs. rewrite Hd, upd_eq. destruct (Nat.eq_dec k g) as [->|D].
        -- exact (x_own _ _ X _ _ Wn).
        -- rewrite upd_ne in Z by auto. pose proof (x_cur _ _ X _ Z) as Y. rewrite (cur_held _ _ H C) in Y. exact Y.
      * intros u k Z. assert (Y : In (FUnl k NRet) (stk s u)).
        { upd_cases u t; auto. destruct Z as [Z|Z]; [discriminate|]. rewrite E. now right. }
        upd_cases u t; exact (x_ret _ _ X _ _ Y).
      * intros u k Z. rewrite val_upd in Z. destruct (Nat.eq_dec k g) as [->|D].
        -- rewrite upd_eq in Z. cbn in Z. specialize (N2 u). lia.
        -- rewrite upd_ne in Z by auto. upd_cases u t; exact (x_epo _ _ X _ _ Z).
    + constructor; cbs; auto.
      * intros u. specialize (N2 u). lia.
      * exists (g :: G). split; auto. split; [|cbn; lia]. intros k Z. rewrite val_upd.
        destruct (Nat.eq_dec k g) as [->|D]; [rewrite upd_eq; cbn; lia|]. rewrite upd_ne by auto. destruct Z as [Z|Z]; [congruence|]. now apply N4.
    + auto.
  - (* rollback *)
    rename H0 into E. assert (C : crit (stk s t) = true) by now rewrite E.
    destruct H1 as (L & _). pose proof (proj1 (h_hold _ H t) C) as Hd. pose proof (h_cur _ H g) as Q. rewrite (cur_held _ _ H C) in Q.
    destruct (own_one _ _ _ _ F t g _ _ E (Nat.eqb_refl g)) as (Wn & _). pose proof (f_some _ _ _ _ F _ _ Wn) as V1.
    assert (K : ~ completed g (log s)) by (apply (f_fr _ _ _ _ F t (FStore g false)); rewrite E; now left).
    exists (upd ow g None). split; [|split; [|split; [|split; [|split]]]]; cbs.
    + eapply FI_ext; [intros k; symmetry; apply val_upd|]. cbn [m_val wmsg].
      apply (FI_store _ _ _ _ F t g (FStore g false) r [FUnl g NThrow] 0 (log s)); auto with om.
      * apply Nat.eqb_refl.
      * discriminate.
      * eapply tail_ok; eauto.
      * intros f [<-|[]]. exact I.
    + apply MI_wr; auto; [apply M|lia|lia].
    + eapply HI_wr; eauto; [apply raise_ge|rewrite raise_eq; cbn [m_ts wmsg]; lia].
    + constructor; cbs.
      * intros k u Z. destruct (Nat.eq_dec k g) as [->|D]; [rewrite upd_eq in Z; discriminate|]. rewrite upd_ne in Z by auto.
        upd_cases u t; exact (x_own _ _ X _ _ Z).
      * intros k Z. unfold cur. cbs. rewrite Hd, upd_eq. destruct (Nat.eq_dec k g) as [->|D].
        -- exact (x_own _ _ X _ _ Wn).
        -- rewrite upd_ne in Z by auto. pose proof (x_cur _ _ X _ Z) as Y. rewrite (cur_held _ _ H C) in Y. exact Y.
      * intros u k Z. assert (Y : In (FUnl k NRet) (stk s u)).
        { upd_cases u t; auto. destruct Z as [Z|Z]; [discriminate|]. rewrite E. now right. }
        upd_cases u t; exact (x_ret _ _ X _ _ Y).
      * intros u k Z. rewrite val_upd in Z. destruct (Nat.eq_dec k g) as [->|D].
        -- rewrite upd_eq in Z. cbn in Z. pose proof (n_glob _ _ N). pose proof (n_epo _ _ N u). lia.
        -- rewrite upd_ne in Z by auto. upd_cases u t; exact (x_epo _ _ X _ _ Z).
    + eapply NI_wr; [exact N|reflexivity..|]. lia.
    + auto.
Qed.

Lemma completions_cons : forall x h, completions h <= completions (x :: h).
Proof. intros x h. unfold completions. cbn. destruct x as [| ? ? ? [|] | |]; cbn; lia. Qed.
Lemma log_grows : forall W s s', estep W s s' -> completions (log s) <= completions (log s').
Proof.
  intros W s s' H. destruct H; cbn [log put say wr take give count_e set_glob set_epo]; auto using completions_cons.
  destruct H; cbn [log put say]; auto using completions_cons.
Qed.

Lemma EI_reach : forall W s, reach (estep W) (init W) s -> completions (log s) + 3 <= W -> EI W s.
Proof.
  intros W s H. induction H as [|s s' H IH T]; intros B.
  - exists (fun _ => None). split; [apply FI_init|]. split; [apply MI_init|]. split; [apply HI_init|]. cbn in B.
    split; [|split; [|apply promises_nil]].
    + constructor; cbn; intros; try discriminate; try contradiction; intros ? ? ? [].
    + constructor; cbn; [lia|lia|]. exists []. repeat split; [constructor|intros g []|cbn; lia].
  - eapply EI_step; eauto. apply IH. pose proof (log_grows _ _ _ T). lia.
Qed.
