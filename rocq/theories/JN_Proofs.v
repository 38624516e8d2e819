(** * Proofs about join and detach *)
From Verif Require Export JN_Frag.
From Verif Require Import MonWake SettleR JN_Model JN_Spec.

Lemma stat_mono s s' (x : tst) : mono s s' -> (ph s = 6 -> ph s' = 6) ->
  (dn s = false -> dn s' = true -> not_on jnprog CDone x) ->
  (js s = true -> jd s = false -> jd s' = true -> not_on jnprog CDone x) ->
  (ph s <> 6 -> ph s' = 6 -> not_on jnprog COs x) -> stat s x -> stat s' x.
Proof.
  intros (M1 & M2 & M3 & M4) M5 N1 N2 N3 H. destruct x as [l|l op k|l op c k|l ns|]; simpl in *; auto.
  - destruct k as [| | | | | | | | |[]| | | | | |]; simpl in *; intuition.
  - destruct c; [destruct k; try contradiction|].
    + destruct (dn s') eqn:E; [|reflexivity]. specialize (N1 H eq_refl). discriminate N1.
    + destruct H as (H1 & H2 & H3). repeat split; auto. destruct (jd s') eqn:E; [|reflexivity]. specialize (N2 H1 H2 eq_refl). discriminate N2.
    + destruct H as (-> & H2 & H3). split; [reflexivity|]. split; [|exact (M2 H3)]. intros E. specialize (N3 H2 E). discriminate N3.
Qed.

Lemma Nums_woken s l l' : woken_rel l l' -> Nums s l -> Nums s l'.
Proof. intros Hw [H1 H2 H3 H4 H5 H6 H7 H8 H9 H10 H11 H12]. constructor; rewrite ?(cnt_woken _ _ _ Hw); auto. Qed.

Lemma Nums_local s l t x y : nth_error l t = Some x -> (forall f, f = rw \/ f = isA \/ f = isB \/ f = isC \/ f = isD \/ f = t1 \/ f = t2 \/ f = t3 \/ f = t4 \/ f = t5 -> kw x f = kw y f) ->
  Nums s l -> Nums s (upd l t y).
Proof.
  intros Ht Hf HN. assert (HC : forall f, f = rw \/ f = isA \/ f = isB \/ f = isC \/ f = isD \/ f = t1 \/ f = t2 \/ f = t3 \/ f = t4 \/ f = t5 -> cnt f (upd l t y) = cnt f l).
  { intros f H. pose proof (cnt_upd f _ y _ _ Ht). rewrite (Hf f H) in H0. lia. }
  destruct HN as [H1 H2 H3 H4 H5 H6 H7 H8 H9 H10 H11 H12]. constructor; rewrite ?HC; auto 12.
Qed.

Lemma detach_called_mono (c c' : jnconf) h : hist c' = h ++ hist c -> detach_called c -> detach_called c'.
Proof. intros E [t Hin]. exists t. rewrite E. apply in_or_app. auto. Qed.

Lemma Inv_step c c' : Inv c -> stepcase jnprog c c' -> Inv c'.
Proof.
  intros [Hst HN HJ HD HK] Hs. destruct Hs as
   [t l op Ht Hp ->|t ps e l op k s' ns o thr' Ht Hfr Hd ->|t p l n ns thr' Ht Hd ->
   |t l op cv k Ht ->|t l op cv k k' Ht Hk ->|t l op cv k k' Ht Hk ->|t l op k k' Ht Hk ->].
  - constructor; cbn [sh thr].
    + apply Forall_upd; auto. reflexivity.
    + apply (Nums_local _ _ _ _ _ Ht); auto. intros f [->|[->|[->|[->|[->|[->|[->|[->|[->| ->]]]]]]]]]; reflexivity.
    + intros (t' & op' & [E|Hin]); [discriminate|]. apply HJ. now exists t', op'.
    + intros H. pose proof (cnt_upd isE _ (Ready jcv l op (JBegin op)) _ _ Ht) as E. cbn [kw] in E. cbn [start jnprog] in H.
      destruct op; cbn [isE] in E; try (destruct HD as [t' Hin]; [lia|exists t'; right; exact Hin]).
      exists t. now left.
    + intros H. destruct (HK H) as [H'|[t' Hin]]; [now left|right]. exists t'. now right.
  - pose proof (Forall_nth_error Hst Ht) as Hx. simpl in Hx. pose proof (deliver_all_woken Hd) as Hw.
    assert (Ht' : nth_error thr' t = Some (Ready jcv l op k)) by (apply (woken_not_asleep Hw Ht); reflexivity).
    pose proof (Nums_woken _ _ _ Hw HN) as HN'.
    cbn [frag jnprog] in Hfr. destruct (frag_ok _ _ _ _ _ _ _ l op (hist c) thr' Hfr HN' Ht' Hx) as (F1 & F2 & F3 & F4 & F5 & F6 & F7 & F8 & F9 & F10 & F11).
    destruct (after jnprog t l op o (hist c)) as [y h] eqn:Ea. cbn [fst] in *.
    assert (Hh : exists h0, h = h0 ++ hist c /\ (forall t' op', In (EDone t' op' RJoined) h0 -> o = ORet jk jcv RJoined)).
    { destruct o; simpl in Ea; try contradiction; injection Ea as <- <-; [|exists []; simpl; tauto..].
      eexists [_]. split; [reflexivity|]. intros t' op' [E|[]]. congruence. }
    destruct Hh as (h0 & -> & Hh0). constructor; cbn [sh thr].
    + apply Forall_upd; auto. pose proof (woken_Forall _ Hw (stat_wake (sh c)) Hst) as Hst'.
      rewrite Forall_forall in Hst' |- *. intros x Hin.
      apply (stat_mono (sh c)); auto.
      * intros A B. pose proof (deliver_all_NAll jnprog CDone _ _ _ Hd (F4 A B)) as Hn. rewrite Forall_forall in Hn. auto.
      * intros A B B'. pose proof (deliver_all_NAll jnprog CDone _ _ _ Hd (F5 A B B')) as Hn. rewrite Forall_forall in Hn. auto.
      * intros A B. pose proof (deliver_all_NAll jnprog COs _ _ _ Hd (F6 A B)) as Hn. rewrite Forall_forall in Hn. auto.
    + exact F2.
    + intros (t' & op' & Hin). cbn [hist] in Hin. apply in_app_or in Hin as [Hin|Hin].
      * apply (F8 RJoined); [eapply Hh0; eauto|reflexivity].
      * destruct F3 as (_ & M2 & _ & M4). destruct HJ as [A B]; [now exists t', op'|]. auto.
    + intros H. apply (detach_called_mono c _ h0); [reflexivity|]. apply HD.
      pose proof (cnt_upd isE _ y _ _ Ht') as E. cbn [kw] in E. rewrite (cnt_woken isE _ _ Hw) in E. lia.
    + intros H. destruct (jd (sh c)) eqn:Ej.
      * destruct (HK eq_refl) as [H'|H']; [left; auto|right]. now apply (detach_called_mono c _ h0).
      * destruct (F10 eq_refl H) as [H'|H']; [now left|right]. apply (detach_called_mono c _ h0); [reflexivity|]. apply HD. subst k.
        pose proof (cnt_ge isE _ _ _ Ht) as G. cbn in G. lia.
  - destruct (Forall_nth_error Hst Ht).
  - pose proof (Forall_nth_error Hst Ht) as Hx. constructor; cbn [sh thr]; auto.
    + apply Forall_upd; auto. apply (stat_wake _ (Asleep l op cv k) eq_refl Hx).
    + apply (Nums_local _ _ _ _ _ Ht); auto.
    + intros H. apply HD. pose proof (cnt_upd isE _ (Ready jcv l op k) _ _ Ht) as E. cbn [kw] in E. lia.
  - pose proof (Forall_nth_error Hst Ht) as Hx. simpl in Hk. destruct k as [|tm|tm| | | | | | | | | | | | |]; try discriminate. cbn in Hk. destruct tm; try discriminate. injection Hk as <-.
    constructor; cbn [sh thr]; auto.
    + apply Forall_upd; auto. exact I.
    + apply (Nums_local _ _ _ _ _ Ht); auto. intros f [->|[->|[->|[->|[->|[->|[->|[->|[->| ->]]]]]]]]]; reflexivity.
    + intros H. apply HD. pose proof (cnt_upd isE _ (Ready jcv l op JDeadline) _ _ Ht) as E. cbn [kw isE] in E. lia.
  - pose proof (Forall_nth_error Hst Ht) as Hx. simpl in Hk.
    assert (Ek : k' = JDrop RInterrupted /\ ((exists tm, k = JWaitDone tm) \/ k = JWaitJoined)) by (destruct k; try discriminate; cbn in Hk; injection Hk as <-; eauto).
    destruct Ek as [-> Ek]. constructor; cbn [sh thr]; auto.
    + apply Forall_upd; auto. exact I.
    + apply (Nums_local _ _ _ _ _ Ht); auto. intros f [->|[->|[->|[->|[->|[->|[->|[->|[->| ->]]]]]]]]]; destruct Ek as [[tm ->]| ->]; reflexivity.
    + intros H. apply HD. pose proof (cnt_upd isE _ (Ready jcv l op (JDrop RInterrupted)) _ _ Ht) as E. cbn [kw isE] in E. lia.
  - pose proof (Forall_nth_error Hst Ht) as Hx. simpl in Hk.
    assert (Ek : k' = JDrop RInterrupted /\ ((exists tm, k = JWaitDone tm) \/ k = JWaitJoined)) by (destruct k; try discriminate; cbn in Hk; injection Hk as <-; eauto).
    destruct Ek as [-> Ek]. constructor; cbn [sh thr]; auto.
    + apply Forall_upd; auto. exact I.
    + apply (Nums_local _ _ _ _ _ Ht); auto. intros f [->|[->|[->|[->|[->|[->|[->|[->|[->| ->]]]]]]]]]; destruct Ek as [[tm ->]| ->]; reflexivity.
    + intros H. apply HD. pose proof (cnt_upd isE _ (Ready jcv l op (JDrop RInterrupted)) _ _ Ht) as E. cbn [kw isE] in E. lia.
Qed.

Lemma Inv_reachable n c : reachable jnprog n jinit tt c -> Inv c.
Proof.
  apply (reachable_inv jnprog Inv).
  - assert (HC : forall f, cnt f (repeat (Idle jk jop jcv tt) n) = 0) by (intros f; unfold cnt; rewrite sumw_repeat; simpl; lia).
    constructor; cbn [sh thr init].
    + apply Forall_forall. intros x Hx. apply repeat_spec in Hx. subst. exact I.
    + constructor; cbn; rewrite ?HC; lia.
    + intros (t & op & []).
    + rewrite HC. lia.
    + discriminate.
  - intros c0 c' HI Hs. eapply Inv_step; eauto.
Qed.

(** ** Coming to rest *)
Definition jrank (k : jk) : nat :=
  match k with
  | JBegin _ => 9 | JEnter _ => 8 | JWaitDone _ | JDeadline => 7 | JWaitJoined => 6 | JOs => 6 | JOsWait => 5 | JSet => 4 | JReset => 3
  | DLock => 3 | JDrop _ => 1 | TFun => 6 | THandlers => 5 | TDone => 4 | TRef => 3 | TTerm => 2
  end.
Lemma jn_ranked : ranked jnprog jrank.
Proof.
  intros t e k s s' ns o. cbn [frag jnprog]. destruct k; try destruct op; cbn [jfrag]; unfold seen_done;
    repeat match goal with |- context [if ?b then _ else _] => destruct b end; intros H; inversion H; subst; simpl; auto; lia.
Qed.

Lemma join_live n c t : reachable jnprog n jinit tt c -> quiescent c -> terminated c -> t < length (thr c) -> idle c t.
Proof.
  intros Hr Hq Hterm Hlt. destruct (Inv_reachable _ _ Hr) as [Hst HN _ _ _]. unfold terminated in Hterm.
  destruct (nth_error (thr c) t) as [x|] eqn:Ht; [|apply nth_error_None in Ht; lia].
  destruct (quiescent_settled Hq Ht) as [(l & ->)|(l & op & cv & k & ->)]; [now exists l|]. exfalso.
  pose proof (Forall_nth_error Hst Ht) as Hx. destruct HN as [H1 H2 H3 H4 H5 H6 H7 H8 H9 H10 H11 H12]. rewrite Hterm in *. simpl in H5.
  assert (Hz : forall f, (forall k, f k = 0 \/ k = JOs \/ k = JOsWait \/ k = JSet) -> cnt f (thr c) = 0).
  { intros f Hf. apply sumw_zero. intros y Hin. apply In_nth_error in Hin as [i Hi].
    destruct (quiescent_settled Hq Hi) as [(l' & ->)|(l' & op' & cv' & k' & ->)]; [reflexivity|]. pose proof (Forall_nth_error Hst Hi) as Hy. simpl in *.
    destruct (Hf k') as [E|[E|[E|E]]]; auto; subst; exfalso; destruct cv'; simpl in Hy; try tauto. }
  assert (cnt isA (thr c) = 0) by (apply Hz; intros []; auto).
  assert (cnt isB (thr c) = 0) by (apply Hz; intros []; auto).
  assert (cnt isC (thr c) = 0) by (apply Hz; intros []; auto).
  simpl in Hx. destruct cv; [destruct k; try contradiction|].
  - congruence.
  - destruct Hx as (Ej & Ed & _). rewrite Ej, Ed in *. simpl in *. lia.
  - tauto.
Qed.
