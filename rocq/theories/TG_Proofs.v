(** * Proofs about thread_group *)
From Verif Require Import MonitorLemmas MonWake MonTrace TG_Model TG_Spec.
Set Implicit Arguments.
Notation tst := (tstat gk gop gcv unit).

Lemma mem_In i l : mem i l = true <-> In i l.
Proof. unfold mem. rewrite existsb_exists. split; [intros (j & Hj & E); apply Nat.eqb_eq in E; now subst|intros H; exists i; split; auto; apply Nat.eqb_refl]. Qed.
Lemma nodup_spec l : nodup l = true <-> NoDup l.
Proof.
  induction l as [|p l IH]; simpl; [split; auto; constructor|]. rewrite andb_true_iff, negb_true_iff, IH. split.
  - intros [H1 H2]. constructor; auto. rewrite <- mem_In. congruence.
  - intros H. inversion H; subst. split; auto. destruct (mem p l) eqn:E; auto. apply mem_In in E. contradiction.
Qed.
Lemma has_id_self s p : In p (grp s) -> has_id s (id_of s p) = true.
Proof. intros H. unfold has_id. apply existsb_exists. exists p. split; auto. apply Nat.eqb_refl. Qed.
Lemma has_id_In s p : has_id s (S p) = true -> In p (grp s).
Proof. unfold has_id. rewrite existsb_exists. intros (q & Hq & E). apply Nat.eqb_eq in E. unfold id_of in E. destruct (att s q); [injection E as <-; auto|discriminate]. Qed.
Lemma remove1_erase p l : remove1 p l = erase_first p l.
Proof. induction l as [|r l IH]; simpl; auto. destruct (Nat.eqb_spec r p), (Nat.eq_dec r p); auto; try contradiction. now rewrite IH. Qed.
Lemma remove1_In p q l : In q (remove1 p l) -> In q l.
Proof. induction l as [|r l IH]; simpl; auto. destruct (r =? p); simpl; tauto. Qed.
Lemma remove1_NoDup p l : NoDup l -> NoDup (remove1 p l).
Proof. induction l as [|r l IH]; simpl; auto. intros H. inversion H; subst. destruct (r =? p); auto. constructor; auto. intros Hin. apply remove1_In in Hin. contradiction. Qed.

Definition inj (k : gk) : nat := match k with KJoin _ _ => 1 | _ => 0 end.
Definition wj (x : tst) : nat := match x with Ready _ _ _ k | Asleep _ _ _ k => inj k | _ => 0 end.
Definition okk (s : tg) (op : gop) (k : gk) : Prop :=
  match k with
  | KStart op' => op' = op
  | KAdd p => op = OAdd p
  | KJoinLock self => op = OJoinAll self
  | KJoin self l => op = OJoinAll self /\ exists l0, grp s = l0 ++ l /\ forall p, In p l0 -> ended s p = true
  end.
Definition blocked (s : tg) (cv : gcv) (k : gk) : Prop :=
  match cv with
  | CM => inj k = 0 /\ xw s = true
  | CE => exists self p l, k = KJoin self (p :: l) /\ ended s p = false
  end.
Definition stat (s : tg) (x : tst) : Prop :=
  match x with
  | Idle _ _ _ _ => True
  | Ready _ _ op k => okk s op k
  | Asleep _ op cv k => okk s op k /\ blocked s cv k
  | Crashed _ _ _ _ => True
  | _ => False end.
Record Inv (c : tgconf) : Prop := {
  v_st : Forall (stat (sh c)) (thr c);
  v_n : nsh (sh c) = sumw wj (thr c);
  v_xw : xw (sh c) = true -> 0 < nsh (sh c);
  v_grp : grp (sh c) = members (hist c);
  v_att : forall p, att (sh c) p = false -> ended (sh c) p = true;
  v_end : forall p, ended (sh c) p = true <-> has_ended (hist c) p;
  v_used : forall p, In p (grp (sh c)) -> In p (used (sh c)) }.

Definition wo (o : outcome gk gcv gres) : nat := match o with OYield _ _ k | OSleep _ _ k => inj k | _ => 0 end.
(** what the event at the end of the call says *)
Definition ev_ok (s s' : tg) (op : gop) (r : gres) : Prop :=
  match op with
  | OAdd p => r = ROk /\ grp s' = grp s ++ [p] \/ r = RDup /\ grp s' = grp s /\ has_id s (id_of s p) = true
  | OCreate p => r = ROk /\ grp s' = grp s ++ [p] \/ r = RUsed /\ grp s' = grp s
  | ORemove p => grp s' = remove1 p (grp s) /\ r = ROk
  | OJoinAll self => grp s' = grp s /\ (r = ROk \/ r = RSelf /\ exists p, self = Some p /\ In p (grp s)) /\ (r = ROk -> forall p, In p (grp s) -> ended s p = true)
  | OSize => grp s' = grp s /\ r = RNum (length (grp s))
  | OIsIn p => grp s' = grp s /\ r = RBool (has_id s (id_of s p))
  | OEnd p => grp s' = grp s /\ r = ROk
  | ODestroy => grp s' = grp s /\ r = ROk
  end.
Record fpost (op : gop) (k : gk) (s s' : tg) (ns : list (notif gcv)) (o : outcome gk gcv gres) : Prop := {
  p_out : match o with ORet _ _ r => ev_ok s s' op r | OYield _ _ k' => okk s' op k' /\ grp s' = grp s | OSleep _ cv k' => okk s' op k' /\ blocked s' cv k' /\ grp s' = grp s | OUB _ _ _ => grp s' = grp s | _ => False end;
  p_n : nsh s' + inj k = nsh s + wo o;
  p_xw : (xw s = true -> 0 < nsh s) -> xw s' = true -> 0 < nsh s';
  p_grp : grp s' <> grp s -> nsh s = 0;
  p_end : forall p, ended s' p = true <-> (ended s p = true \/ (op = OEnd p /\ exists r, o = ORet gk gcv r));
  p_att : (forall p, att s p = false -> ended s p = true) -> forall p, att s' p = false -> ended s' p = true;
  p_used : (forall p, In p (grp s) -> In p (used s)) -> forall p, In p (grp s') -> In p (used s');
  p_nm : xw s = true -> xw s' = false -> In (NAll CM) ns;
  p_ne : forall p, ended s p = false -> ended s' p = true -> In (NAll CE) ns }.

Lemma unlock_sh_eq s s' ns : unlock_sh s = (s', ns) -> grp s' = grp s /\ att s' = att s /\ ended s' = ended s /\ used s' = used s /\ nsh s' = pred (nsh s) /\
  (xw s' = true -> xw s = true /\ nsh s' <> 0) /\ (xw s = true -> xw s' = false -> In (NAll CM) ns).
Proof.
  unfold unlock_sh. destruct (Nat.eqb_spec (nsh (MkT (grp s) (att s) (ended s) (used s) (pred (nsh s)) (xw s))) 0) as [E|E]; cbn in E; intros H; inversion H; subst; cbn; repeat split; auto; try discriminate; congruence.
Qed.

Ltac dx := match goal with H : context [if ?b then _ else _] |- _ => let E := fresh "E" in destruct b eqn:E end.
Lemma frag_ok t e k s s' ns o op : gfrag t e k s = (s', ns, o) -> okk s op k -> (inj k = 1 -> 0 < nsh s) -> (forall p, att s p = false -> ended s p = true) -> fpost op k s s' ns o.
Proof.
  intros Hf Hk Hn Hatt. destruct k as [op'|p|self|self l]; cbn [okk] in Hk.
  - subst op'. cbn [gfrag] in Hf. unfold shrd, excl in Hf. destruct op as [p|p|p|p| |self|p|].
    + destruct (xw s) eqn:Ex; [|destruct (has_id s (id_of s p)) eqn:Eh]; inversion Hf; subst; constructor; cbn; auto; try congruence; try tauto; try (intros; split; [tauto|intros [?|[? ?]]; [auto|discriminate]]).
    + destruct (Nat.eqb_spec (nsh s) 0) as [En|En]; [destruct (mem p (used s))|]; inversion Hf; subst; constructor; cbn; auto; try congruence; try tauto; try lia; try (intros; split; [tauto|intros [?|[? ?]]; [auto|discriminate]]).
      intros Hu q Hq. apply in_app_or in Hq as [Hq|[->|[]]]; auto.
    + destruct (Nat.eqb_spec (nsh s) 0) as [En|En]; inversion Hf; subst; constructor; cbn; auto; try congruence; try tauto; try lia; try (intros; split; [tauto|intros [?|[? ?]]; [auto|discriminate]]).
      intros Hu q Hq. apply remove1_In in Hq. auto.
    + destruct (xw s) eqn:Ex; inversion Hf; subst; constructor; cbn; auto; try congruence; try tauto; try (intros; split; [tauto|intros [?|[? ?]]; [auto|discriminate]]).
    + destruct (xw s) eqn:Ex; inversion Hf; subst; constructor; cbn; auto; try congruence; try tauto; try (intros; split; [tauto|intros [?|[? ?]]; [auto|discriminate]]).
    + destruct (xw s) eqn:Ex; [|destruct self as [p|]; [destruct (has_id s (S p)) eqn:Eh|]]; inversion Hf; subst; constructor; cbn; auto; try congruence; try tauto; try (intros; split; [tauto|intros [?|[? ?]]; [auto|discriminate]]).
      split; auto. split; [right; split; auto; exists p; split; auto; apply has_id_In; auto|discriminate].
    + inversion Hf; subst; constructor; cbn; auto; try congruence; try tauto.
      * intros q. unfold fupd. destruct (Nat.eqb_spec q p) as [->|Hq]; [split; auto; intros; right; eauto|]. split; [tauto|]. intros [?|[H ?]]; auto. congruence.
      * intros _ q Hq. unfold fupd. destruct (q =? p); auto.
    + destruct (nodup (grp s)) eqn:Ed; inversion Hf; subst; constructor; cbn; auto; try congruence; try tauto; try (intros; split; [tauto|intros [?|[? ?]]; [auto|discriminate]]).
  - subst op. cbn [gfrag] in Hf. unfold excl in Hf. destruct (Nat.eqb_spec (nsh s) 0) as [En|En]; inversion Hf; subst; constructor; cbn; auto; try congruence; try tauto; try lia; try (intros; split; [tauto|intros [?|[? ?]]; [auto|discriminate]]).
    intros Hu q Hq. apply in_app_or in Hq as [Hq|[->|[]]]; auto.
  - subst op. cbn [gfrag] in Hf. unfold shrd in Hf. destruct (xw s) eqn:Ex; inversion Hf; subst; constructor; cbn; auto; try congruence; try tauto; try lia; try (intros; split; [tauto|intros [?|[? ?]]; [auto|discriminate]]).
    split; auto. split; auto. exists []. split; [reflexivity|intros q []].
  - destruct Hk as [-> (l0 & El & Hl)]. specialize (Hn eq_refl). destruct l as [|p l]; cbn [gfrag] in Hf.
    + destruct (unlock_sh s) as [s1 ns1] eqn:Eu. destruct (unlock_sh_eq _ Eu) as (E1 & E2 & E3 & E4 & E5 & E6 & E7). inversion Hf; subst. constructor; cbn; auto; try congruence.
      all: try (intros; rewrite ?E1, ?E2, ?E3, ?E4 in *; first [lia|tauto|congruence|auto; fail]).
      * split; auto. split; auto. intros _ q Hq. rewrite El, app_nil_r in Hq. auto.
      * intros _ Hx. destruct (E6 Hx). lia.
      * intros q. rewrite E3. split; [tauto|intros [?|[? ?]]; [auto|discriminate]].
    + destruct (att s p) eqn:Ea; cbn [negb] in Hf.
      * destruct (match self with Some q => q =? p | None => false end) eqn:Es.
        { destruct (unlock_sh s) as [s1 ns1] eqn:Eu. destruct (unlock_sh_eq _ Eu) as (E1 & E2 & E3 & E4 & E5 & E6 & E7). inversion Hf; subst. constructor; cbn; auto; try congruence.
          all: try (intros; rewrite ?E1, ?E2, ?E3, ?E4 in *; first [lia|tauto|congruence|auto; fail]).
          - split; auto. split; [|discriminate]. right. split; auto. destruct self as [q|]; [|discriminate]. apply Nat.eqb_eq in Es as ->. exists p. split; auto. rewrite El. apply in_or_app. right. left. auto.
          - intros _ Hx. destruct (E6 Hx). lia.
          - intros q. rewrite E3. split; [tauto|intros [?|[? ?]]; [auto|discriminate]]. }
        destruct (ended s p) eqn:Ee; inversion Hf; subst; constructor; cbn; auto; try congruence; try tauto; try lia; try (intros; split; [tauto|intros [?|[? ?]]; [auto|discriminate]]).
        -- split; auto. split; auto. exists (l0 ++ [p]). split; [rewrite El, <- app_assoc; reflexivity|]. intros q Hq. apply in_app_or in Hq as [Hq|[<-|[]]]; auto.
        -- intros H q. unfold fupd. destruct (Nat.eqb_spec q p); subst; auto.
        -- split; [|split; auto]; eauto. 
      * inversion Hf; subst; constructor; cbn; auto; try congruence; try tauto; try lia; try (intros; split; [tauto|intros [?|[? ?]]; [auto|discriminate]]).
        split; auto. split; auto. exists (l0 ++ [p]). split; [rewrite El, <- app_assoc; reflexivity|]. intros q Hq. apply in_app_or in Hq as [Hq|[<-|[]]]; auto.
Qed.

Lemma upd_thr (l : list tst) t y u x : t < length l -> nth_error (upd l t y) u = Some x -> u = t /\ x = y \/ u <> t /\ nth_error l u = Some x.
Proof.
  intros Hlt H. destruct (Nat.eq_dec u t) as [->|Hn]; [left|right; split; auto].
  - rewrite nth_error_upd_same in H by auto. split; congruence.
  - now rewrite nth_error_upd_other in H by auto.
Qed.
Lemma woken_back (l l' : list tst) u x : woken_rel l l' -> nth_error l' u = Some x -> exists x0, nth_error l u = Some x0 /\ (x = x0 \/ is_asleep x0 = true /\ x = wake x0).
Proof.
  intros [Hlen Hw] Hx. destruct (nth_error l u) as [x0|] eqn:E.
  - exists x0. split; auto. destruct (Hw _ _ E) as [E'|[Ha E']]; rewrite E' in Hx; injection Hx as <-; auto.
  - apply nth_error_None in E. assert (u < length l') by (apply nth_error_Some; congruence). lia.
Qed.
Lemma wj_wake (x : tst) : wj (wake x) = wj x.
Proof. destruct x; reflexivity. Qed.

(** other threads' continuations survive a step *)
Lemma okk_mono s s' op k : (inj k = 1 -> grp s' = grp s) -> (forall p, ended s p = true -> ended s' p = true) -> okk s op k -> okk s' op k.
Proof.
  intros Hg He. destruct k as [op'|p|self|self l]; cbn; auto. intros [H (l0 & E & Hl)]. split; auto. exists l0. split; [rewrite Hg; auto|auto].
Qed.

Definition callof (x : tst) : option gop := match x with Ready _ _ op _ | Asleep _ op _ _ => Some op | _ => None end.
Lemma callof_wake (x : tst) : callof (wake x) = callof x.
Proof. destruct x; reflexivity. Qed.

Lemma Inv_step c c' : Inv c -> stepcase tgprog c c' -> Inv c'.
Proof.
  intros [I1 I2 I3 I4 I5 I6 I7] Hs. destruct Hs as
   [t l op Ht Hp ->|t ps e l op k s' ns o thr' Ht Hfr Hd ->|t p l n ns thr' Ht Hd ->
   |t l op cv k Ht ->|t l op cv k k' Ht Hk ->|t l op cv k k' Ht Hk ->|t l op k k' Ht Hk ->]; try discriminate Hk.
  - constructor; cbn [sh thr hist]; auto.
    + apply Forall_upd; auto. reflexivity.
    + pose proof (sumw_upd wj (Ready gcv l op (KStart op)) Ht) as H. cbn in H |- *. lia.
    + intros p. rewrite I6. unfold has_ended. split; intros [u H]; exists u; [right; auto|]. destruct H as [H|H]; [discriminate|auto].
  - assert (Hk : okk (sh c) op k) by (eapply (Forall_nth_error I1 Ht)). cbn [frag tgprog] in Hfr.
    pose proof (deliver_all_woken Hd) as Hw. assert (Ht' : nth_error thr' t = Some (Ready gcv l op k)) by (eapply woken_not_asleep; eauto).
    pose proof (sumw_ge wj Ht) as G1. cbn [wj] in G1.
    assert (FP : fpost op k (sh c) s' ns o) by (eapply frag_ok; eauto; lia).
    destruct FP as [F1 F2 F3 F4 F5 F6 F7 F8 F9].
    set (y := fst (after tgprog t l op o (hist c))). assert (Ey : wj y = wo o) by (destruct o; try contradiction; reflexivity).
    assert (S1 : sumw wj thr' = sumw wj (thr c)) by (apply woken_sumw_eq; auto; intros; apply wj_wake).
    assert (Hgm : members (snd (after tgprog t l op o (hist c))) = grp s').
    { destruct o as [r|r ns0|cv0 k0|k0|]; cbn; try contradiction; try (destruct F1 as (_ & _ & E)); try (destruct F1 as (_ & E)); try (rewrite ?E, ?F1; auto; fail).
      destruct op; cbn in F1.
      - destruct F1 as [[-> E]|(-> & E & _)]; rewrite E; cbn; congruence.
      - destruct F1 as [[-> E]|[-> E]]; rewrite E; cbn; congruence.
      - destruct F1 as [E ->]. rewrite E. cbn. rewrite <- I4. symmetry. apply remove1_erase.
      - destruct F1 as [E ->]. rewrite E. cbn. congruence.
      - destruct F1 as [E ->]. rewrite E. cbn. congruence.
      - destruct F1 as (E & [->|[-> _]] & _); rewrite E; cbn; congruence.
      - destruct F1 as [E ->]. rewrite E. cbn. congruence.
      - destruct F1 as [E ->]. rewrite E. cbn. congruence. }
    constructor; cbn [sh thr hist]; auto.
    + fold y. apply Forall_forall. intros z Hz. apply In_nth_error in Hz as [u Hz].
      apply upd_thr in Hz; [|apply nth_error_Some; congruence]. destruct Hz as [[-> ->]|[Hn Hz]].
      * unfold y. destruct o; try contradiction; cbn; auto; tauto.
      * destruct (woken_back _ Hw Hz) as (z0 & Hz0 & Hzz). pose proof (Forall_nth_error I1 Hz0) as Jz.
        assert (Hg : wj z0 = 1 -> grp s' = grp (sh c)).
        { intros Hj. destruct (list_eq_dec Nat.eq_dec (grp s') (grp (sh c))) as [E|E]; auto. pose proof (F4 E). pose proof (sumw_ge wj Hz0). lia. }
        assert (He : forall p, ended (sh c) p = true -> ended s' p = true) by (intros p Hp; apply F5; auto).
        destruct z0 as [u0|u0 op0 k0|u0 op0 cv0 k0|u0 ns0|]; destruct Hzz as [->|[Ha0 ->]]; try discriminate; cbn in Jz, Hg |- *; auto.
        -- eapply okk_mono; eauto.
        -- destruct Jz as [J1 J2]. split; [eapply okk_mono; eauto|].
           assert (K : In (NAll cv0) ns -> False).
           { intros Hi. pose proof (deliver_all_NAll tgprog cv0 ns ps _ Hd Hi) as Hx. rewrite Forall_forall in Hx. specialize (Hx _ (nth_error_In _ _ Hz)). unfold not_on in Hx. destruct cv0; cbn in Hx; discriminate. }
           destruct cv0; cbn in J2 |- *.
           ++ destruct J2 as [J2 J3]. split; auto. destruct (xw s') eqn:E; auto; exfalso; auto.
           ++ destruct J2 as (self & p & l1 & -> & J3). exists self, p, l1. split; auto. destruct (ended s' p) eqn:E; auto; exfalso; eauto.
        -- destruct Jz as [J1 J2]. eapply okk_mono; eauto.
    + pose proof (sumw_upd wj y Ht') as H. rewrite Ey, S1 in H. cbn [wj] in H. fold y. lia.
    + intros p. rewrite F5, I6. unfold has_ended. destruct o as [r|r ns0|cv0 k0|k0|]; cbn; try contradiction.
      * split.
        -- intros [[u H]|[-> _]]; [exists u; auto|]. exists t. left. cbn in F1. destruct F1 as [_ ->]. reflexivity.
        -- intros [u [H|H]]; [|left; eauto]. injection H as -> -> ->. right. split; eauto.
      * split; [intros [H|[_ [r Hr]]]; [auto|discriminate]|auto].
      * split; [intros [H|[_ [r Hr]]]; [auto|discriminate]|auto].
      * split; [intros [H|[_ [r Hr]]]; [auto|discriminate]|auto].
  - destruct (Forall_nth_error I1 Ht).
  - constructor; cbn [sh thr hist]; auto.
    + apply Forall_upd; auto. destruct (Forall_nth_error I1 Ht); auto.
    + pose proof (sumw_upd wj (Ready gcv l op k) Ht) as H. cbn in H |- *. lia.
Qed.

Lemma Inv_reachable n c : reachable tgprog n tg0 tt c -> Inv c.
Proof.
  apply (reachable_inv tgprog Inv); [|intros c0 c1; apply Inv_step].
  constructor; cbn; try discriminate; try contradiction; auto.
  - apply Forall_forall. intros x Hx. apply repeat_spec in Hx. subst. exact I.
  - now rewrite sumw_repeat.
  - intros p. split; [discriminate|]. intros [u []].
Qed.

(** ** with a single adding thread nobody is in the group twice *)
Definition kof (x : tst) : option gk := match x with Ready _ _ _ k | Asleep _ _ _ k => Some k | _ => None end.
Lemma kof_wake (x : tst) : kof (wake x) = kof x.
Proof. destruct x; reflexivity. Qed.
Record fpost2 (k : gk) (s s' : tg) (o : outcome gk gcv gres) : Prop := {
  q_grp : grp s' = grp s \/ (exists p, grp s' = grp s ++ [p] /\ (k = KAdd p \/ ~ In p (used s))) \/ (exists p, grp s' = remove1 p (grp s));
  q_used : incl (used s) (used s');
  q_next : match o with OYield _ _ (KAdd p) => ~ In p (grp s') /\ In p (used s') | OSleep _ _ (KAdd p) => k = KAdd p /\ grp s' = grp s | OUB _ _ _ => nodup (grp s) = false | _ => True end }.
Lemma frag2 t e k s s' ns o : gfrag t e k s = (s', ns, o) -> fpost2 k s s' o.
Proof.
  intros Hf. destruct k as [op|p|self|self l].
  - destruct op as [p|p|p|p| |self|p|]; cbn [gfrag] in Hf; unfold shrd, excl in Hf.
    + destruct (xw s); [inversion Hf; subst; constructor; cbn; auto; apply incl_refl|]. destruct (has_id s (id_of s p)) eqn:Eh; inversion Hf; subst; constructor; cbn; auto; try apply incl_refl.
      * intros x Hx. right; auto.
      * split; auto. intros Hin. rewrite has_id_self in Eh; auto. discriminate.
    + destruct (nsh s =? 0); [destruct (mem p (used s)) eqn:Em|]; inversion Hf; subst; constructor; cbn; auto; try apply incl_refl.
      * right. left. exists p. split; auto. right. rewrite <- mem_In. congruence.
      * intros x Hx. right; auto.
    + destruct (nsh s =? 0); inversion Hf; subst; constructor; cbn; auto; try apply incl_refl. right. right. eauto.
    + destruct (xw s); inversion Hf; subst; constructor; cbn; auto; apply incl_refl.
    + destruct (xw s); inversion Hf; subst; constructor; cbn; auto; apply incl_refl.
    + destruct (xw s); [|destruct self as [p|]; [destruct (has_id s (S p))|]]; inversion Hf; subst; constructor; cbn; auto; apply incl_refl.
    + inversion Hf; subst; constructor; cbn; auto; apply incl_refl.
    + destruct (nodup (grp s)) eqn:En; inversion Hf; subst; constructor; cbn; auto; apply incl_refl.
  - cbn [gfrag] in Hf. unfold excl in Hf. destruct (nsh s =? 0); inversion Hf; subst; constructor; cbn; auto; try apply incl_refl.
    + right. left. eauto.
    + intros x Hx. right; auto.
  - cbn [gfrag] in Hf. unfold shrd in Hf. destruct (xw s); inversion Hf; subst; constructor; cbn; auto; apply incl_refl.
  - assert (U : forall s1 ns1, unlock_sh s = (s1, ns1) -> grp s1 = grp s /\ incl (used s) (used s1)).
    { intros s1 ns1 E. destruct (unlock_sh_eq _ E) as (E1 & _ & _ & E2 & _). rewrite E2. split; auto. apply incl_refl. }
    destruct l as [|p l]; cbn [gfrag] in Hf.
    + destruct (unlock_sh s) as [s1 ns1]. destruct (U _ _ eq_refl). inversion Hf; subst. constructor; cbn; auto.
    + destruct (negb (att s p)); [inversion Hf; subst; constructor; cbn; auto; apply incl_refl|].
      destruct (match self with Some q => q =? p | None => false end).
      * destruct (unlock_sh s) as [s1 ns1]. destruct (U _ _ eq_refl). inversion Hf; subst. constructor; cbn; auto.
      * destruct (ended s p); inversion Hf; subst; constructor; cbn; auto; apply incl_refl.
Qed.

Lemma att_join t e k s s' ns o : gfrag t e k s = (s', ns, o) -> forall p, att s' p = att s p \/ exists self l, k = KJoin self l.
Proof.
  intros Hf p. destruct k as [op|p0|self|self l]; [left|left|left|right; eauto]; cbn [gfrag] in Hf; unfold shrd, excl in Hf.
  - destruct op as [p1|p1|p1|p1| |self|p1|]; repeat match type of Hf with context [if ?b then _ else _] => destruct b | context [match ?x with Some _ => _ | None => _ end] => destruct x end; inversion Hf; reflexivity.
  - destruct (nsh s =? 0); inversion Hf; reflexivity.
  - destruct (xw s); inversion Hf; reflexivity.
Qed.
Record Inv2 (c : tgconf) : Prop := {
  w_inv : Inv c;
  w_call : forall t x op, nth_error (thr c) t = Some x -> callof x = Some op -> In (ECall gres t op) (hist c);
  w_att : no_join (hist c) -> forall p, att (sh c) p = true;
  w_one : one_adder (hist c) -> NoDup (grp (sh c)) /\ (forall x p, In x (thr c) -> kof x = Some (KAdd p) -> ~ In p (grp (sh c)) /\ In p (used (sh c))) /\
          ~ In (Crashed gk gop gcv unit) (thr c) }.

Lemma one_adder_mono ev h : one_adder (ev :: h) -> one_adder h.
Proof. intros H t p Hin. apply (H t p). now right. Qed.
Lemma NoDup_snoc (l : list nat) p : NoDup l -> ~ In p l -> NoDup (l ++ [p]).
Proof. intros H1 H2. apply NoDup_Add with (a := p) (l := l); [|auto]. rewrite <- (app_nil_r l) at 1. apply Add_app. Qed.

Lemma Inv2_step c c' : Inv2 c -> stepcase tgprog c c' -> Inv2 c'.
Proof.
  intros [HI HC HJ H1] Hs. pose proof (Inv_step HI Hs) as HI'. destruct Hs as
   [t l op Ht Hp ->|t ps e l op k s' ns o thr' Ht Hfr Hd ->|t p l n ns thr' Ht Hd ->
   |t l op cv k Ht ->|t l op cv k k' Ht Hk ->|t l op cv k k' Ht Hk ->|t l op k k' Ht Hk ->]; try discriminate Hk.
  - assert (Hlt : t < length (thr c)) by (apply nth_error_Some; congruence). constructor; auto; cbn [sh thr hist].
    + intros u x op0 Hx Hc. apply upd_thr in Hx as [[-> ->]|[Hn Hx]]; auto; [left; cbn in Hc; congruence|right; eauto].
    + intros Hj. apply HJ. intros u self Hin. apply (Hj u self). right; auto.
    + intros Ho. apply one_adder_mono in Ho. destruct (H1 Ho) as (A & B & D). split; auto. split.
      * intros x p Hx Hkx. apply In_nth_error in Hx as [u Hx]. apply upd_thr in Hx as [[-> ->]|[Hn Hx]]; auto; [discriminate|]. eapply B; eauto. eapply nth_error_In; eauto.
      * intros Hx. apply In_nth_error in Hx as [u Hx]. apply upd_thr in Hx as [[-> E]|[Hn Hx]]; auto; [discriminate|]. eapply D, nth_error_In; eauto.
  - cbn [frag tgprog] in Hfr. destruct (frag2 _ _ _ _ Hfr) as [Q1 Q2 Q3].
    pose proof (deliver_all_woken Hd) as Hw. assert (Ht' : nth_error thr' t = Some (Ready gcv l op k)) by (eapply woken_not_asleep; eauto).
    assert (Hlt : t < length thr') by (apply nth_error_Some; congruence).
    assert (Hk : okk (sh c) op k) by (eapply (Forall_nth_error (v_st HI) Ht)).
    assert (Hcall : In (ECall gres t op) (hist c)) by (eapply HC; eauto; reflexivity).
    assert (Hh : exists h0, snd (after tgprog t l op o (hist c)) = h0 ++ hist c) by (destruct o; cbn; [eexists [_]; reflexivity|eexists [_]; reflexivity|exists []; reflexivity..]).
    destruct Hh as [h0 Hh].
    constructor; auto; cbn [sh thr hist].
    + intros u x op0 Hx Hc. rewrite Hh. apply in_or_app. right. apply upd_thr in Hx as [[-> ->]|[Hn Hx]]; auto.
      * assert (op0 = op) by (destruct o as [r|r [|n0 ns0]|cv0 k0|k0|]; cbn in Hc; congruence). subst. auto.
      * destruct (woken_back _ Hw Hx) as (z0 & Hz0 & [->|[_ ->]]); [eauto|]. rewrite callof_wake in Hc. eauto.
    + intros Hj p. rewrite Hh in Hj. assert (Hj' : no_join (hist c)) by (intros u self Hin; apply (Hj u self), in_or_app; auto). specialize (HJ Hj').
      destruct (att_join _ _ _ _ Hfr p) as [E|(self & l1 & E)]; [rewrite E; auto|]. subst k. destruct Hk as [-> _]. destruct (Hj' _ _ Hcall).
    + intros Ho. rewrite Hh in Ho. assert (Ho' : one_adder (hist c)) by (intros u p Hin; apply (Ho u p), in_or_app; auto).
      destruct (H1 Ho') as (A & B & D).
      assert (Oth : forall u x p, nth_error thr' u = Some x -> u <> t -> kof x = Some (KAdd p) -> exists x0, In x0 (thr c) /\ kof x0 = Some (KAdd p) /\ u = 0).
      { intros u x p Hx Hn Hkx. destruct (woken_back _ Hw Hx) as (z0 & Hz0 & Hzz).
        assert (Hkz : kof z0 = Some (KAdd p)) by (destruct Hzz as [->|[_ ->]]; [auto|now rewrite kof_wake in Hkx]).
        exists z0. split; [eapply nth_error_In; eauto|]. split; auto.
        assert (In (ECall gres u (OAdd p)) (hist c)); [|eapply Ho'; eauto].
        eapply HC; eauto. pose proof (Forall_nth_error (v_st HI) Hz0) as J. destruct z0; cbn in Hkz; try discriminate; injection Hkz as ->; cbn in J |- *; [congruence|]. destruct J. congruence. }
      assert (Kt : forall p, k = KAdd p -> t = 0) by (intros p ->; cbn in Hk; subst op; eapply Ho'; eauto).
      assert (ND : NoDup (grp s')).
      { destruct Q1 as [->|[(p & -> & Hp)|(p & ->)]]; auto; [|apply remove1_NoDup; auto].
        apply NoDup_snoc; auto. destruct Hp as [->|Hp]; [eapply (B (Ready gcv l op (KAdd p))); [eapply nth_error_In; eauto|reflexivity]|].
        intros Hin. apply Hp, (v_used HI), Hin. }
      split; auto. split.
      * intros x p Hx Hkx. apply In_nth_error in Hx as [u Hx]. apply upd_thr in Hx as [[-> ->]|[Hn Hx]]; auto.
        -- destruct o as [r|r [|n0 ns0]|cv0 k0|k0|]; cbn in Hkx; try discriminate; injection Hkx as ->; auto.
           destruct Q3 as [-> E]. rewrite E. destruct (B (Ready gcv l op (KAdd p)) p) as [B1 B2]; [eapply nth_error_In; eauto|reflexivity|]. auto.
        -- destruct (Oth _ _ _ Hx Hn Hkx) as (x0 & Hx0 & Hk0 & ->). destruct (B _ _ Hx0 Hk0) as [B1 B2]. split; [|apply Q2; auto].
           destruct Q1 as [->|[(q & -> & Hq)|(q & ->)]]; auto.
           ++ intros Hin. apply in_app_or in Hin as [Hin|[<-|[]]]; auto. destruct Hq as [->|Hq]; auto. apply Hn. symmetry. eapply Kt; eauto.
           ++ intros Hin. apply remove1_In in Hin. auto.
      * intros Hx. apply In_nth_error in Hx as [u Hx]. apply upd_thr in Hx as [[-> E]|[Hn Hx]]; auto.
        -- destruct o as [r|r [|n0 ns0]|cv0 k0|k0|]; cbn in E, Q3; try discriminate. apply nodup_spec in A. congruence.
        -- destruct (woken_back _ Hw Hx) as (z0 & Hz0 & [E|[E1 E2]]); [subst; eapply D, nth_error_In; eauto|]. destruct z0; discriminate.
  - destruct (Forall_nth_error (v_st HI) Ht).
  - assert (Hlt : t < length (thr c)) by (apply nth_error_Some; congruence). constructor; auto; cbn [sh thr hist].
    + intros u x op0 Hx Hc. apply upd_thr in Hx as [[-> ->]|[Hn Hx]]; auto; [eapply HC; eauto; exact Hc|eauto].
    + intros Ho. destruct (H1 Ho) as (A & B & D). split; auto. split.
      * intros x p Hx Hkx. apply In_nth_error in Hx as [u Hx]. apply upd_thr in Hx as [[-> ->]|[Hn Hx]]; auto; [|eapply B; eauto; eapply nth_error_In; eauto].
        apply (B (Asleep l op cv k)); [eapply nth_error_In; eauto|exact Hkx].
      * intros Hx. apply In_nth_error in Hx as [u Hx]. apply upd_thr in Hx as [[-> E]|[Hn Hx]]; auto; [discriminate|]. eapply D, nth_error_In; eauto.
Qed.
Lemma Inv2_reachable n c : reachable tgprog n tg0 tt c -> Inv2 c.
Proof.
  apply (reachable_inv tgprog Inv2); [|intros c0 c1; apply Inv2_step]. constructor.
  - apply (@Inv_reachable n). exists []. reflexivity.
  - intros t x op Hx Hc. apply nth_error_In, repeat_spec in Hx. subst. discriminate.
  - auto.
  - intros _. split; [constructor|]. split; [intros x p Hx Hk; apply repeat_spec in Hx; subst; discriminate|]. intros Hx. apply repeat_spec in Hx. discriminate.
Qed.

(** ** what a finished call says *)
Lemma event_ok n c t op r h1 h2 : reachable tgprog n tg0 tt c -> hist c = h1 ++ EDone t op r :: h2 ->
  exists s s', grp s = members h2 /\ ev_ok s s' op r /\ (forall p, ended s p = true <-> has_ended h2 p) /\ (no_join h2 -> forall p, att s p = true).
Proof.
  intros Hr E. destruct (event_step tgprog h1 (EDone t op r) h2 Hr E) as (c0 & lb & c1 & Hr0 & Hlb & E0 & E1 & _). pose proof (step_inv tgprog _ _ Hlb) as Hst.
  pose proof (Inv_reachable Hr0) as HI. pose proof (v_grp HI) as Hg. pose proof (v_end HI) as He.
  destruct Hst as
   [t0 l op0 Ht Hp ->|t0 ps e l op0 k s' ns o thr' Ht Hfr Hd ->|t0 p l m ns thr' Ht Hd ->
   |t0 l op0 cv k Ht ->|t0 l op0 cv k k' Ht Hk ->|t0 l op0 cv k k' Ht Hk ->|t0 l op0 k k' Ht Hk ->]; cbn in E1; try discriminate Hk.
  all: try (rewrite E0 in E1; try discriminate; exfalso; apply (f_equal (@length _)) in E1; cbn in E1; lia).
  assert (Hk : okk (sh c0) op0 k) by (eapply (Forall_nth_error (v_st HI) Ht)). cbn [frag tgprog] in Hfr.
  pose proof (sumw_ge wj Ht) as G1. cbn [wj] in G1. pose proof (v_n HI) as Hn.
  assert (FP : fpost op0 k (sh c0) s' ns o) by (eapply frag_ok; eauto; [lia|apply (v_att HI)]). destruct FP as [F1 _ _ _ _ _ _ _ _].
  destruct o as [r0|r0 ns0|cv0 k0|k0|]; cbn in E1, F1; try contradiction; rewrite E0 in E1; try (exfalso; apply (f_equal (@length _)) in E1; cbn in E1; lia).
  injection E1 as -> -> -> . exists (sh c0), s'. rewrite <- E0. split; auto. split; auto. split; auto. apply (w_att (Inv2_reachable Hr0)).
Qed.

(** ** at rest *)
Lemma rest n c : reachable tgprog n tg0 tt c -> quiescent c -> (forall p, In p (members (hist c)) -> has_ended (hist c) p) ->
  forall t l op cv k, nth_error (thr c) t <> Some (Asleep l op cv k).
Proof.
  intros Hr Hq Hall t l op cv k Ht. pose proof (Inv_reachable Hr) as HI.
  assert (A : forall t l op k, nth_error (thr c) t = Some (Asleep l op CE k) -> False).
  { intros u l0 op0 k0 Hu. destruct (Forall_nth_error (v_st HI) Hu) as [J1 (self & p & l1 & -> & J2)]. destruct J1 as [_ (l2 & El & _)].
    assert (Hin : In p (members (hist c))) by (rewrite <- (v_grp HI), El; apply in_or_app; right; left; auto).
    apply Hall in Hin. apply (v_end HI) in Hin. congruence. }
  destruct cv; [|eauto]. destruct (Forall_nth_error (v_st HI) Ht) as [J1 [J2 J3]].
  pose proof (v_xw HI J3) as Hn. rewrite (v_n HI) in Hn. apply sumw_pos in Hn as (u & x & Hu & Hw).
  destruct (quiescent_settled Hq Hu) as [(l' & ->)|(l' & op' & cv' & k' & ->)]; cbn in Hw; [lia|].
  destruct cv'; [|eauto]. destruct (Forall_nth_error (v_st HI) Hu) as [_ [J4 _]]. lia.
Qed.
