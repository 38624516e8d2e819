(** * Proofs about continuations *)
From Verif Require Import MonitorLemmas FC_Model.
Set Implicit Arguments.
Notation tst := (tstat ck cop ccv unit).
Notation fcconf := (cfg fcs ck cop cres ccv unit).

Definition occ (l : list nat) (x : nat) : nat := count_occ Nat.eq_dec l x.
Definition frames (k : ck) : list (list nat) := match k with KLoop fs | KIn fs => fs | _ => [] end.
Definition pend_k (k : ck) (x : nat) : nat := occ (concat (frames k)) x.
Definition pend (x : nat) (y : tst) : nat := match y with Ready _ _ _ k => pend_k k x | _ => 0 end.
Definition good_k (k : ck) : Prop := match k with KStart _ => True | KLoop fs | KIn fs => fs <> [] end.
Definition inloop (k : ck) : bool := match k with KStart _ => false | _ => true end.
Definition fine (s : fcs) (y : tst) : Prop :=
  match y with Idle _ _ _ _ => True | Ready _ _ op k => good_k k /\ (forall op', k = KStart op' -> op' = op) /\ (inloop k = true -> ready s = true) | _ => False end.

Lemma occ_app l l' x : occ (l ++ l') x = occ l x + occ l' x.
Proof. apply count_occ_app. Qed.
Lemma occ_cons y l x : occ (y :: l) x = (if Nat.eq_dec y x then 1 else 0) + occ l x.
Proof. unfold occ. simpl. destruct (Nat.eq_dec y x); reflexivity. Qed.

(** the copies of continuation [x] in the state *)
Definition copies (s : fcs) (x : nat) : nat := occ (conts s) x + occ (launched s) x + occ (lost s) x.
Definition out_pend (o : outcome ck ccv cres) (x : nat) : nat := match o with OYield _ _ k => pend_k k x | _ => 0 end.
Definition one (s : fcs) (x : nat) : nat := if x <? nxt s then 1 else 0.
Local Arguments one : simpl never.
Local Arguments copies : simpl never.
Local Arguments pend_k : simpl never.
Record fpost (op : cop) (k : ck) (s s' : fcs) (o : outcome ck ccv cres) : Prop := {
  p_cnt : forall x, copies s' x + out_pend o x + one s x = copies s x + pend_k k x + one s' x;
  p_nxt : nxt s <= nxt s';
  p_rdy : ready s = true -> ready s' = true;
  p_empty : (ready s = true -> conts s = []) -> ready s' = true -> conts s' = [];
  p_laun : launched s' <> launched s -> ready s' = true;
  p_mono : exists l, launched s' = l ++ launched s;
  p_thr : lost s' <> lost s -> frames k <> [];
  p_out : match o with
    | ORet _ _ r => match op with OReady => r = RBool (ready s) | OSet => (r = RAlready <-> inloop k = false /\ ready s = true) /\ ready s' = true /\ (forall b, r <> RBool b) | OThen => r = ROk \/ r = RThrow end
    | OYield _ _ k' => good_k k' /\ inloop k' = true /\ ready s' = true | _ => False end }.

Lemma one_S n x : (if x <? S n then 1 else 0) = (if x <? n then 1 else 0) + (if Nat.eq_dec n x then 1 else 0).
Proof.
  destruct (Nat.eq_dec n x) as [->|Hn].
  - rewrite (proj2 (Nat.ltb_lt x (S x))) by lia. rewrite (proj2 (Nat.ltb_ge x x)) by lia. reflexivity.
  - destruct (x <? n) eqn:E.
    + apply Nat.ltb_lt in E. rewrite (proj2 (Nat.ltb_lt x _)) by lia. reflexivity.
    + apply Nat.ltb_ge in E. rewrite (proj2 (Nat.ltb_ge x _)) by lia. reflexivity.
Qed.

Lemma frag_ok t a op k s s' ns o : cfrag t a k s = (s', ns, o) -> good_k k -> (forall op', k = KStart op' -> op' = op) -> (inloop k = true -> ready s = true) -> (k = KStart op \/ op <> OReady) -> ns = [] /\ fpost op k s s' o.
Proof.
  intros Hf Hg Hop Hr Hnr. destruct s as [rd cs nx la lo]. cbn in Hr.
  destruct k as [op'|fs|fs]; [destruct (Hop _ eq_refl); destruct op'|..]; cbn in Hf, Hg.
  - unfold attach, do_cont in Hf. cbn in Hf. destruct rd; [destruct (cs ++ [nx]) eqn:E; [destruct cs; discriminate|]|]; inversion Hf; subst; clear Hf; (split; [reflexivity|]); constructor; cbn; auto; try lia; try congruence; try (intros; exists []; reflexivity); try (exists []; reflexivity).
    + intros x. unfold copies, pend_k, one. cbn [take_all ready conts launched lost frames concat nxt]. rewrite one_S. rewrite app_nil_r, <- E, occ_app, occ_cons. cbn. lia.
    + split; [discriminate|]. auto.
    + intros x. unfold copies, pend_k, one. cbn [take_all ready conts launched lost frames concat nxt]. rewrite one_S. rewrite occ_app, occ_cons. cbn. lia.
  - unfold do_cont in Hf. cbn in Hf. destruct rd; [|destruct cs]; inversion Hf; subst; clear Hf; (split; [reflexivity|]); constructor; cbn; auto; try lia; try congruence; try (exists []; reflexivity).
    + split; [tauto|]. split; auto. discriminate.
    + split; [split; [discriminate|intros [_ H]; discriminate]|]. split; auto. discriminate.
    + intros x. unfold copies, pend_k, one. cbn. rewrite app_nil_r. lia.
    + split; [discriminate|]. auto.
  - inversion Hf; subst; clear Hf. split; [reflexivity|]. constructor; cbn; auto; try lia; try congruence; try (exists []; reflexivity).
  - destruct fs as [|[|x l] fs]; [congruence|..].
    + destruct fs as [|f fs]; inversion Hf; subst; clear Hf; (split; [reflexivity|]); constructor; cbn; auto; try lia; try congruence; try (exists []; reflexivity); try (split; [discriminate|auto]).
      destruct op; [auto| |destruct Hnr; congruence]. split; [split; [discriminate|intros [H _]; discriminate]|]. split; [auto|discriminate].
    + destruct a; [destruct fs as [|f fs]..|]; inversion Hf; subst; clear Hf; (split; [reflexivity|]); constructor; cbn; auto; try lia; try congruence; try (exists [x]; reflexivity); try (exists []; reflexivity);
        try (intros y; unfold copies, pend_k, one; cbn [take_all ready conts launched lost frames concat nxt app out_pend]; repeat (rewrite ?occ_cons, ?occ_app, ?app_nil_r); cbn; lia).
      all: try (split; [discriminate|auto]).
      destruct op; [auto| |destruct Hnr; congruence]. split; [split; [discriminate|intros [H _]; discriminate]|]. split; [auto|discriminate].
  - destruct a.
    1, 2: inversion Hf; subst; clear Hf; (split; [reflexivity|]); constructor; cbn; auto; try lia; try congruence; try (exists []; reflexivity).
    specialize (Hr eq_refl). subst rd. unfold attach, do_cont in Hf. cbn in Hf. destruct (cs ++ [nx]) eqn:E; [destruct cs; discriminate|]. inversion Hf; subst; clear Hf; (split; [reflexivity|]); constructor; cbn; auto; try lia; try congruence; try (exists []; reflexivity).
    + intros x. unfold copies, pend_k, one. cbn [take_all ready conts launched lost frames concat nxt out_pend app]. rewrite one_S.
      change (n :: l ++ concat fs) with ((n :: l) ++ concat fs). rewrite <- E, !occ_app, occ_cons. cbn. lia.
    + split; [discriminate|]. auto.
Qed.

Definition fine' (s : fcs) (y : tst) : Prop := fine s y /\ match y with Ready _ _ op k => k = KStart op \/ op <> OReady | _ => True end.
Record Inv (c : fcconf) : Prop := {
  v_st : Forall (fine' (sh c)) (thr c);
  v_cnt : forall x, copies (sh c) x + sumw (pend x) (thr c) = one (sh c) x;
  v_empty : ready (sh c) = true -> conts (sh c) = [];
  v_laun : launched (sh c) <> [] -> ready (sh c) = true;
  v_lost : lost (sh c) <> [] -> ready (sh c) = true;
  v_set : forall t r, In (EDone t OSet r) (hist c) -> ready (sh c) = true;
  v_rdy : forall t b, In (EDone t OReady (RBool b)) (hist c) -> b = true -> ready (sh c) = true }.

Lemma Inv_step c c' : Inv c -> stepcase fcprog c c' -> Inv c'.
Proof.
  intros [I1 I2 I3 I4 I4' I5 I6] Hs. assert (I1' : forall t x, nth_error (thr c) t = Some x -> fine' (sh c) x) by (intros t x Hx; eapply Forall_nth_error; eauto).
  destruct Hs as
   [t l op Ht Hp ->|t ps e l op k s' ns o thr' Ht Hfr Hd ->|t p l n ns thr' Ht Hd ->
   |t l op cv k Ht ->|t l op cv k k' Ht Hk ->|t l op cv k k' Ht Hk ->|t l op k k' Ht Hk ->]; try discriminate Hk;
   try (destruct (I1' _ _ Ht) as [[] _]; fail).
  - constructor; cbn; auto.
    + apply Forall_upd; auto. split; [|left; reflexivity]. split; [exact I|]. split; [|discriminate]. intros op' H. injection H as ->. reflexivity.
    + intros x. pose proof (sumw_upd (pend x) (Ready ccv l op (KStart op)) Ht) as H. cbn in H. rewrite <- (I2 x). change (pend_k (KStart op) x) with 0 in H. lia.
    + intros t0 r [H|H]; [discriminate|eauto].
    + intros t0 b [H|H]; [discriminate|eauto].
  - destruct (I1' _ _ Ht) as [(F1 & F2 & F3) F4]. cbn [frag fcprog] in Hfr. assert (FP : ns = [] /\ fpost op k (sh c) s' o) by (eapply frag_ok; eauto). destruct FP as [-> [P1 P2 P3 P4 P5 P6 P7 P8]]. cbn in Hd. injection Hd as <-.
    assert (HF : Forall (fine' s') (thr c)).
    { eapply Forall_impl; [|exact I1]. intros y [Hy Hy']. split; auto. destruct y; auto. destruct Hy as (A & B & C). split; auto. }
    assert (HS : forall x, sumw (pend x) (upd (thr c) t (fst (after fcprog t l op o (hist c)))) + pend_k k x = sumw (pend x) (thr c) + out_pend o x).
    { intros x. pose proof (sumw_upd (pend x) (fst (after fcprog t l op o (hist c))) Ht) as H. cbn [pend] in H. destruct o; try contradiction; cbn in H |- *; lia. }
    constructor; cbn [sh thr hist].
    + apply Forall_upd; auto. destruct o as [r| | |k'|]; try contradiction; cbn; [split; exact I|]. destruct P8 as (A & B & C). split.
      * split; auto. split; auto. intros op' ->. discriminate.
      * destruct F4 as [ -> |]; auto. right. intros ->. cbn in Hfr. injection Hfr as _ H. discriminate.
    + intros x. specialize (P1 x). specialize (I2 x). specialize (HS x). lia.
    + auto.
    + intros H. destruct (list_eq_dec Nat.eq_dec (launched s') (launched (sh c))) as [E|E]; auto. apply P3, I4. congruence.
    + intros H. apply P3. destruct (list_eq_dec Nat.eq_dec (lost s') (lost (sh c))) as [E|E]; [apply I4'; congruence|]. apply P7 in E. destruct k; [cbn in E; congruence|auto|auto].
    + intros t0 r Hin. destruct o as [r0| | |k'|]; try contradiction; cbn in Hin; [|apply P3; eauto]. destruct Hin as [H|H]; [|apply P3; eauto]. injection H as <- -> <-. tauto.
    + intros t0 b Hin Hb. destruct o as [r0| | |k'|]; try contradiction; cbn in Hin; [|apply P3; eauto]. destruct Hin as [H|H]; [|apply P3; eauto]. injection H as <- -> ->. apply P3. cbn in P8. congruence.
Qed.
Lemma Inv_reachable n c : reachable fcprog n fc0 tt c -> Inv c.
Proof.
  apply (reachable_inv fcprog Inv); [|intros c0 c1; apply Inv_step]. constructor; cbn; auto; try contradiction; try congruence.
  - apply Forall_forall. intros y Hy. apply repeat_spec in Hy. subst. split; exact I.
  - intros x. rewrite sumw_repeat. cbn. unfold copies, one. cbn. lia.
Qed.
Lemma at_rest c : Inv c -> quiescent c -> forall x, sumw (pend x) (thr c) = 0.
Proof.
  intros HI Hq x. apply sumw_zero. intros y Hin. apply In_nth_error in Hin as [t Hy]. destruct (quiescent_settled Hq Hy) as [(l & ->)|(l & op & cv & k & ->)]; reflexivity.
Qed.
