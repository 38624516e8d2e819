(** * Proofs about wait_for_any *)
From Verif Require Export MonWake MonTrace WA_Model.
Set Implicit Arguments.
Notation tst := (tstat wk wop wcv unit).
Notation waconf := (cfg wa wk wop wres wcv unit).

Lemma mem_In i l : mem i l = true <-> In i l.
Proof. unfold mem. rewrite existsb_exists. split; [intros (j & Hj & E); apply Nat.eqb_eq in E; now subst|intros H; exists i; split; auto; apply Nat.eqb_refl]. Qed.
Lemma mem_false i l : mem i l = false <-> ~ In i l.
Proof. rewrite <- mem_In. destruct (mem i l); intuition discriminate. Qed.
Lemma first_done_some s fs i j : first_done s fs i = Some j -> i <= j /\ (exists f, nth_error fs (j - i) = Some f /\ done s f = true) /\ forall m g, m < j - i -> nth_error fs m = Some g -> done s g = false.
Proof.
  revert i. induction fs as [|f fs IH]; intros i; simpl; [discriminate|]. destruct (done s f) eqn:E.
  - intros [= <-]. rewrite Nat.sub_diag. split; auto. split; [exists f; auto|]. intros; lia.
  - intros H. destruct (IH _ H) as (H1 & (g & H2 & H3) & H4). split; [lia|]. replace (j - i) with (S (j - S i)) by lia. split; [exists g; auto|].
    intros [|m] g' Hm Hg; simpl in Hg; [congruence|]. apply (H4 m); auto. lia.
Qed.
Lemma first_done_none s fs i : first_done s fs i = None -> forall f, In f fs -> done s f = false.
Proof.
  revert i. induction fs as [|f fs IH]; intros i H g Hg; [destruct Hg|]. simpl in H. destruct (done s f) eqn:E; [discriminate|]. destruct Hg as [ <- |Hg]; eauto.
Qed.

(** the mutexes a thread holds, the states it is registered with *)
Definition held (k : wk) : list nat := match k with KLock fs j => firstn j fs | KCheck fs => fs | _ => [] end.
Definition regs (k : wk) : list nat := match k with KReg fs j => firstn j fs | KLock fs _ | KCheck fs | KRelock fs _ => fs | _ => [] end.
Definition wants (k : wk) : list nat :=
  match k with
  | KStart (WSet f) => [f]
  | KReg fs j | KLock fs j | KUnreg fs j _ => match nth_error fs j with Some f => [f] | None => [] end
  | KRelock fs _ => fs | _ => [] end.
Definition kof (x : tst) : option wk := match x with Ready _ _ _ k | Asleep _ _ _ k => Some k | _ => None end.
Definition holds (x : tst) : list nat := match kof x with Some k => held k | None => [] end.
Definition regd (x : tst) : list nat := match kof x with Some k => regs k | None => [] end.

Section Inv.
  Variable al : wop -> bool.
  Notation P := (waprog al).

  Definition rok (s : wa) (fs : list nat) (r : wres) : Prop := match r with RIdx i => exists f, nth_error fs i = Some f /\ done s f = true | RIntr => True | ROk => False end.
  Definition okk (s : wa) (op : wop) (k : wk) : Prop :=
    match k with
    | KStart op' => op' = op
    | KReg fs j | KLock fs j => op = WWait fs /\ j <= length fs
    | KCheck fs | KRelock fs _ => op = WWait fs
    | KUnreg fs j r => op = WWait fs /\ rok s fs r
    end.
  Definition blocked (t : nat) (s : wa) (cv : wcv) (k : wk) : Prop :=
    match cv with
    | CMut => exists f u, In f (wants k) /\ own s f = Some u
    | CW u => u = t /\ exists fs, k = KRelock fs false /\ forall f, In f fs -> done s f = false
    end.
  Definition stat (t : nat) (s : wa) (x : tst) : Prop :=
    match x with
    | Idle _ _ _ _ => True
    | Ready _ _ op k => okk s op k /\ al op = true
    | Asleep _ op cv k => okk s op k /\ al op = true /\ blocked t s cv k
    | _ => False end.
  Definition all_stat (c : waconf) : Prop := forall t x, nth_error (thr c) t = Some x -> stat t (sh c) x.

  Record Inv (c : waconf) : Prop := {
    v_st : all_stat c;
    v_own : forall f u, own (sh c) f = Some u -> exists x, nth_error (thr c) u = Some x /\ In f (holds x);
    v_held : forall u x f, nth_error (thr c) u = Some x -> In f (holds x) -> own (sh c) f = Some u;
    v_reg : forall u x f, nth_error (thr c) u = Some x -> In f (regd x) -> In u (reg (sh c) f);
    v_h : forall t op r, In (EDone t op r) (hist c) -> match op with WWait fs => rok (sh c) fs r | WSet f => done (sh c) f = true end }.

  Definition out_k (o : outcome wk wcv wres) : option wk := match o with OYield _ _ k | OSleep _ _ k => Some k | _ => None end.
  Lemma firstn_S {A} (l : list A) j x : nth_error l j = Some x -> firstn (S j) l = firstn j l ++ [x].
  Proof. revert j; induction l as [|y l IH]; intros [|j] H; simpl in *; try discriminate; [congruence|]. f_equal. auto. Qed.

  (** what a fragment does *)
  Record fpost (t : nat) (op : wop) (k : wk) (s s' : wa) (ns : list (notif wcv)) (o : outcome wk wcv wres) : Prop := {
    p_out : match o with ORet _ _ r => match op with WWait fs => rok s' fs r | WSet f => done s' f = true end
            | OYield _ _ k' => okk s' op k' | OSleep _ cv k' => okk s' op k' /\ blocked t s' cv k' | _ => False end;
    p_done : forall f, done s f = true -> done s' f = true;
    p_new : forall f u, done s' f = true -> done s f = false -> In u (reg s f) -> In (NAll (CW u)) ns;
    p_other : forall f u, u <> t -> (own s' f = Some u <-> own s f = Some u);
    p_mine : forall f, (match out_k o with Some k' => In f (held k') | None => False end) <-> own s' f = Some t;
    p_free : forall f, own s f <> None -> own s' f = None -> In (NAll CMut) ns;
    p_regs : (forall f, In f (regs k) -> In t (reg s f)) -> forall f, match out_k o with Some k' => In f (regs k') | None => False end -> In t (reg s' f);
    p_rego : forall f u, u <> t -> In u (reg s f) -> In u (reg s' f) }.

  Lemma rok_mono s s' fs r : (forall f, done s f = true -> done s' f = true) -> rok s fs r -> rok s' fs r.
  Proof. intros H. destruct r; simpl; auto. intros (f & H1 & H2). eauto. Qed.
  Lemma not_free s f : free s f = false -> exists u, own s f = Some u.
  Proof. unfold free. destruct (own s f); eauto. discriminate. Qed.
  Lemma is_free s f : free s f = true -> own s f = None.
  Proof. unfold free. destruct (own s f); auto. discriminate. Qed.
  Lemma remove1_other t u l : u <> t -> In u l -> In u (remove1 t l).
  Proof. intros Hn. induction l as [|v l IH]; simpl; auto. intros [E|H]; destruct (Nat.eqb_spec v t) as [E'|]; simpl; auto. congruence. Qed.
  Lemma fupd_same {A} (g : nat -> A) i x : fupd g i x i = x.
  Proof. unfold fupd. now rewrite Nat.eqb_refl. Qed.
  Lemma fupd_other {A} (g : nat -> A) i j x : j <> i -> fupd g i x j = g j.
  Proof. intros H. unfold fupd. apply Nat.eqb_neq in H. now rewrite H. Qed.

  Lemma idle_post t op k k' s o : okk s op k -> (forall f, In f (held k) <-> own s f = Some t) -> (o = OYield wcv wres k' /\ okk s op k' \/ exists cv, o = OSleep wres cv k' /\ okk s op k' /\ blocked t s cv k') -> held k' = held k -> (forall f, In f (regs k') -> In f (regs k)) -> fpost t op k s s [] o.
  Proof.
    intros Hk Hm Ho Eh Er. assert (Eo : out_k o = Some k') by (destruct Ho as [[-> _]|(cv & -> & _)]; reflexivity).
    constructor; auto; try tauto; try congruence.
    - destruct Ho as [[-> Ho]|(cv & -> & Ho)]; auto.
    - intros f. rewrite Eo, Eh. apply Hm.
    - intros H f. rewrite Eo. auto.
  Qed.

  Lemma frag_ok t e k s s' ns o op : wfrag t e k s = (s', ns, o) -> okk s op k -> (forall f, In f (held k) <-> own s f = Some t) -> fpost t op k s s' ns o.
  Proof.
    intros Hf Hk Hm. destruct k as [op'|fs j|fs j|fs|fs i|fs j r]; cbn [wfrag okk] in *.
    - subst op'. destruct op as [fs|f].
      + inversion Hf; subst. eapply idle_post; [reflexivity|exact Hm|left; split; [reflexivity|split; [reflexivity|lia]]|reflexivity|auto].
      + destruct (free s f) eqn:Ef; inversion Hf; subst; clear Hf.
        * constructor; cbn; auto; try tauto; try congruence.
          -- apply fupd_same.
          -- intros g. unfold fupd. destruct (g =? f); auto.
          -- intros g u. unfold fupd. destruct (Nat.eqb_spec g f) as [->|]; [|congruence]. intros _ _ Hin. apply in_map_iff. exists u. auto.
        * eapply idle_post; [reflexivity|exact Hm| |reflexivity|auto]. right. exists CMut. split; auto. split; [reflexivity|]. destruct (not_free _ _ Ef) as [u Hu]. exists f, u. simpl. auto.
    - destruct Hk as [-> Hj]. destruct (nth_error fs j) as [f|] eqn:En.
      + destruct (free s f) eqn:Ef; inversion Hf; subst; clear Hf.
        * assert (j < length fs) by (apply nth_error_Some; congruence). constructor; cbn; auto; try tauto; try congruence.
          -- intros H0 g Hg. change (In g (firstn (S j) fs)) in Hg. rewrite (firstn_S _ _ En) in Hg. unfold fupd. destruct (Nat.eqb_spec g f); [left; auto|]. apply in_app_or in Hg as [Hg|[Hg|[]]]; [auto|congruence].
          -- intros g u Hu Hin. unfold fupd. destruct (Nat.eqb_spec g f); subst; simpl; auto.
        * eapply idle_post; [split; auto|exact Hm| |reflexivity|auto]. right. exists CMut. split; auto. split; [split; auto|]. destruct (not_free _ _ Ef) as [u Hu]. exists f, u. simpl. rewrite En. simpl. auto.
      + inversion Hf; subst. eapply idle_post; [split; auto|exact Hm|left; split; [reflexivity|split; [reflexivity|lia]]|reflexivity|]. cbn. intros f. rewrite firstn_all2; auto. apply nth_error_None. exact En.
    - destruct Hk as [-> Hj]. destruct (nth_error fs j) as [f|] eqn:En.
      + destruct (free s f) eqn:Ef; inversion Hf; subst; clear Hf.
        * assert (j < length fs) by (apply nth_error_Some; congruence). apply is_free in Ef. constructor; cbn; auto; try tauto; try congruence.
          -- intros g u Hu. unfold fupd. destruct (Nat.eqb_spec g f); [|tauto]. subst. rewrite Ef. split; congruence.
          -- intros g. cbn [held] in Hm. change (In g (firstn (S j) fs) <-> fupd (own s) f (Some t) g = Some t). rewrite (firstn_S _ _ En), in_app_iff, Hm. unfold fupd. destruct (Nat.eqb_spec g f) as [->|Hn]; simpl; [tauto|]. intuition congruence.
          -- intros g Hg. unfold fupd. destruct (g =? f); congruence.
        * eapply idle_post; [split; auto|exact Hm| |reflexivity|auto]. right. exists CMut. split; auto. split; [split; auto|]. destruct (not_free _ _ Ef) as [u Hu]. exists f, u. simpl. rewrite En. simpl. auto.
      + inversion Hf; subst. eapply idle_post; [split; auto|exact Hm|left; split; reflexivity| |auto]. cbn. rewrite firstn_all2; auto. apply nth_error_None. exact En.
    - subst op. destruct (first_done s fs 0) as [i|] eqn:Ed; inversion Hf; subst; clear Hf.
      all: constructor; cbn; auto; try congruence; try tauto; try (intros f u Hu; destruct (mem f fs) eqn:Em; [|tauto]; apply mem_In in Em; apply Hm in Em; rewrite Em; split; congruence);
        try (intros f; destruct (mem f fs) eqn:Em; [split; [intros []|discriminate]|apply mem_false in Em; rewrite <- Hm; simpl; tauto]).
      + apply first_done_some in Ed as (_ & (f & E1 & E2) & _). rewrite Nat.sub_0_r in E1. eauto.
      + split; auto. split; auto. exists fs. split; auto. exact (first_done_none _ _ _ Ed).
    - subst op. destruct (forallb (free s) fs) eqn:Ef.
      + rewrite forallb_forall in Ef. destruct i; inversion Hf; subst; clear Hf.
        * eapply idle_post; [reflexivity|exact Hm|left; split; [reflexivity|split; [reflexivity|exact I]]|reflexivity|]. intros f [].
        * constructor; cbn; auto; try congruence; try tauto.
          -- intros f u Hu. destruct (mem f fs) eqn:Em; [|tauto]. apply mem_In, Ef, is_free in Em. rewrite Em. split; congruence.
          -- intros f. destruct (mem f fs) eqn:Em; [apply mem_In in Em; tauto|]. apply mem_false in Em. cbn in Hm. rewrite <- Hm. tauto.
          -- intros f H. destruct (mem f fs); congruence.
      + inversion Hf; subst. eapply idle_post; [reflexivity|exact Hm| |reflexivity|auto]. right. exists CMut. split; auto. split; [reflexivity|].
        destruct (existsb (fun f => negb (free s' f)) fs) eqn:Ex.
        * apply existsb_exists in Ex as (f & Hi & Hn). apply negb_true_iff in Hn. destruct (not_free _ _ Hn) as [u Hu]. exists f, u. auto.
        * exfalso. assert (forallb (free s') fs = true); [|congruence]. apply forallb_forall. intros f Hi. destruct (free s' f) eqn:E; auto.
          assert (existsb (fun f => negb (free s' f)) fs = true); [|congruence]. apply existsb_exists. exists f. rewrite E. auto.
    - destruct Hk as [-> Hr]. destruct (nth_error fs j) as [f|] eqn:En.
      + destruct (free s f) eqn:Ef; inversion Hf; subst; clear Hf.
        * constructor; cbn; auto; try congruence; try tauto. intros g u Hu Hin. unfold fupd. destruct (Nat.eqb_spec g f); subst; auto. apply remove1_other; auto.
        * eapply idle_post; [split; auto|exact Hm| |reflexivity|auto]. right. exists CMut. split; auto. split; [split; auto|]. destruct (not_free _ _ Ef) as [u Hu]. exists f, u. simpl. rewrite En. simpl. auto.
      + inversion Hf; subst. constructor; cbn; auto; try congruence; try tauto.
  Qed.

  Lemma okk_mono s s' op k : (forall f, done s f = true -> done s' f = true) -> okk s op k -> okk s' op k.
  Proof. intros H. destruct k; simpl; auto. intros [-> Hr]. split; auto. eapply rok_mono; eauto. Qed.
  Lemma upd_thr (l : list tst) t y u x : t < length l -> nth_error (upd l t y) u = Some x -> u = t /\ x = y \/ u <> t /\ nth_error l u = Some x.
  Proof.
    intros Hlt H. destruct (Nat.eq_dec u t) as [->|Hn]; [left|right; split; auto].
    - rewrite nth_error_upd_same in H by auto. split; congruence.
    - now rewrite nth_error_upd_other in H by auto.
  Qed.
  Lemma woken_back l l' u x : woken_rel l l' -> nth_error l' u = Some x -> exists x0, nth_error l u = Some x0 /\ kof x = kof x0 /\ (x = x0 \/ is_asleep x0 = true /\ x = wake x0).
  Proof.
    intros [Hlen Hw] Hx. destruct (nth_error l u) as [x0|] eqn:E.
    - exists x0. split; auto. destruct (Hw _ _ E) as [E'|[Ha E']]; rewrite E' in Hx; injection Hx as <-; auto. split; auto. destruct x0; try discriminate; reflexivity.
    - apply nth_error_None in E. assert (u < length l') by (apply nth_error_Some; congruence). lia.
  Qed.
  Lemma held_iff c t x k : Inv c -> nth_error (thr c) t = Some x -> kof x = Some k -> forall f, In f (held k) <-> own (sh c) f = Some t.
  Proof.
    intros I Ht Hk f. split.
    - intros Hf. apply (v_held I _ f Ht). unfold holds. now rewrite Hk.
    - intros Ho. destruct (v_own I _ Ho) as (y & Hy & Hin). rewrite Ht in Hy. injection Hy as <-. unfold holds in Hin. now rewrite Hk in Hin.
  Qed.
  (** a thread that changes only its program point, keeping what it holds and is registered with *)
  Lemma Inv_set c t x y h : Inv c -> nth_error (thr c) t = Some x -> stat t (sh c) y -> holds y = holds x -> regd y = regd x -> (forall ev, In ev h -> In ev (hist c) \/ exists t op, ev = ECall wres t op) -> Inv (MkCfg (sh c) (upd (thr c) t y) h).
  Proof.
    intros [I1 I2 I3 I4 I5] Ht Hy Hh Hr Hev. assert (Hlt : t < length (thr c)) by (apply nth_error_Some; congruence).
    constructor; cbn [sh thr hist]; auto.
    - intros u z Hz. apply upd_thr in Hz as [[-> ->]|[Hn Hz]]; auto.
    - intros f u Ho. destruct (I2 _ _ Ho) as (z & Hz & Hin). destruct (Nat.eq_dec u t) as [->|Hn].
      + exists y. rewrite nth_error_upd_same by auto. rewrite Ht in Hz. injection Hz as <-. now rewrite Hh.
      + exists z. rewrite nth_error_upd_other by auto. auto.
    - intros u z f Hz Hin. apply upd_thr in Hz as [[-> ->]|[Hn Hz]]; auto; [|eauto]. rewrite Hh in Hin. eauto.
    - intros u z f Hz Hin. apply upd_thr in Hz as [[-> ->]|[Hn Hz]]; auto; [|eauto]. rewrite Hr in Hin. eauto.
    - intros t0 op r Hin. destruct (Hev _ Hin) as [H|(? & ? & H)]; [exact (I5 _ _ _ H)|discriminate].
  Qed.

  Lemma Inv_step c c' : Inv c -> stepcase P c c' -> Inv c'.
  Proof.
    intros HI Hs. pose proof HI as [I1 I2 I3 I4 I5]. destruct Hs as
     [t l op Ht Hp ->|t ps e l op k s' ns o thr' Ht Hfr Hd ->|t p l n ns thr' Ht Hd ->
     |t l op cv k Ht ->|t l op cv k k' Ht Hk ->|t l op cv k k' Ht Hk ->|t l op k k' Ht Hk ->]; try discriminate Hk.
    - eapply Inv_set; [exact HI|exact Ht|..]; try reflexivity.
      + split; auto. reflexivity.
      + intros ev [<-|Hin]; eauto.
    - destruct (I1 _ _ Ht) as [Hk Ha]. cbn [frag waprog] in Hfr.
      assert (Hm : forall f, In f (held k) <-> own (sh c) f = Some t) by (eapply held_iff; [exact HI|exact Ht|reflexivity]). assert (FP : fpost t op k (sh c) s' ns o) by (eapply frag_ok; eauto). destruct FP as [F1 F2 F3 F4 F5 F6 F7 F8].
      pose proof (deliver_all_woken Hd) as Hw. assert (Hlt : t < length thr') by (rewrite (woken_length Hw); apply nth_error_Some; congruence).
      set (y := fst (after P t l op o (hist c))). assert (Ey : kof y = out_k o) by (destruct o; try contradiction; reflexivity).
      assert (Hok : match o with ORet _ _ _ | OYield _ _ _ | OSleep _ _ _ => True | _ => False end) by (destruct o; auto).
      constructor; cbn [sh thr hist]; auto.
      + intros u z Hz. apply upd_thr in Hz as [[-> ->]|[Hn Hz]]; auto.
        * unfold y. destruct o; try contradiction; cbn; auto. destruct F1; auto.
        * destruct (woken_back _ Hw Hz) as (z0 & Hz0 & _ & Hzz). specialize (I1 _ _ Hz0).
          destruct z0 as [u0|u0 op0 k0|u0 op0 cv0 k0|u0 ns0|]; destruct Hzz as [->|[Ha0 ->]]; try discriminate; cbn in I1 |- *; auto.
          -- destruct I1 as [J1 J2]. split; auto. eapply okk_mono; [exact F2|exact J1].
          -- destruct I1 as (J1 & J2 & J3). split; [eapply okk_mono; [exact F2|exact J1]|]. split; auto.
             assert (K : In (NAll cv0) ns -> False).
             { intros Hi. pose proof (deliver_all_NAll P cv0 ns ps _ Hd Hi) as Hx. rewrite Forall_forall in Hx. specialize (Hx _ (nth_error_In _ _ Hz)). unfold not_on in Hx; destruct cv0; cbn in Hx; rewrite ?Nat.eqb_refl in Hx; discriminate. }
             destruct cv0 as [v|]; cbn in J3 |- *.
             ++ destruct J3 as (-> & fs & -> & J3). split; auto. exists fs. split; auto. intros f Hf. destruct (done s' f) eqn:Ed; auto. exfalso. apply K.
                apply (F3 f); auto. apply (I4 _ _ f Hz0). exact Hf.
             ++ destruct J3 as (f & v & J3 & J4). exists f. destruct (own s' f) as [v'|] eqn:Eo; [exists v'; auto|]. exfalso. apply K. apply (F6 f); congruence.
          -- destruct I1 as (J1 & J2 & J3). split; auto. eapply okk_mono; [exact F2|exact J1].
      + intros f u Ho. destruct (Nat.eq_dec u t) as [->|Hn].
        * exists y. rewrite nth_error_upd_same by auto. split; auto. unfold holds. rewrite Ey. apply F5 in Ho. destruct (out_k o); auto.
        * apply (F4 f u Hn) in Ho. destruct (I2 _ _ Ho) as (z & Hz & Hin). rewrite nth_error_upd_other by auto.
          destruct Hw as [_ Hw]. destruct (Hw _ _ Hz) as [E|[Hs E]]; eexists; (split; [exact E|]); auto. destruct z; try discriminate. exact Hin.
      + intros u z f Hz Hin. apply upd_thr in Hz as [[-> ->]|[Hn Hz]]; auto.
        * apply F5. unfold holds in Hin. rewrite Ey in Hin. destruct (out_k o); auto.
        * destruct (woken_back _ Hw Hz) as (z0 & Hz0 & Ek & _). apply (F4 f u Hn). apply (I3 _ _ f Hz0). unfold holds in *. now rewrite <- Ek.
      + intros u z f Hz Hin. apply upd_thr in Hz as [[-> ->]|[Hn Hz]]; auto.
        * apply F7; [|unfold regd in Hin; rewrite Ey in Hin; destruct (out_k o); auto]. intros g Hg. apply (I4 _ _ g Ht). exact Hg.
        * destruct (woken_back _ Hw Hz) as (z0 & Hz0 & Ek & _). apply (F8 f u Hn). apply (I4 _ _ f Hz0). unfold regd in *. now rewrite <- Ek.
      + assert (H5 : forall t0 op0 r0, In (EDone t0 op0 r0) (hist c) -> match op0 with WWait fs => rok s' fs r0 | WSet f => done s' f = true end).
        { intros t0 op0 r0 Hin. specialize (I5 _ _ _ Hin). destruct op0; auto. eapply rok_mono; eauto. }
        destruct o; try contradiction; cbn [after snd]; auto. intros t0 op0 r0 [E|Hin]; [|exact (H5 _ _ _ Hin)]. injection E as <- <- <-. exact F1.
    - destruct (I1 _ _ Ht).
    - eapply Inv_set; [exact HI|exact Ht|..]; auto. destruct (I1 _ _ Ht) as (J1 & J2 & _). split; auto.
    - eapply Inv_set; [exact HI|exact Ht|..]; auto; destruct k as [|fs j|fs j|fs|fs []|fs j r]; try discriminate Hk; injection Hk as <-; auto. destruct (I1 _ _ Ht) as (J1 & J2 & _). split; auto.
    - eapply Inv_set; [exact HI|exact Ht|..]; auto; destruct k as [|fs j|fs j|fs|fs []|fs j r]; try discriminate Hk; injection Hk as <-; auto. destruct (I1 _ _ Ht) as (J1 & J2). split; auto.
  Qed.
  Lemma Inv_reachable n c : reachable P n wa0 tt c -> Inv c.
  Proof.
    apply (reachable_inv P Inv); [|intros c0 c1; apply Inv_step].
    assert (Hi : forall t (x : tst), nth_error (repeat (Idle wk wop wcv tt) n) t = Some x -> x = Idle wk wop wcv tt) by (intros t x Hx; apply nth_error_In, repeat_spec in Hx; auto).
    constructor; cbn; try discriminate; try contradiction.
    - intros t x Hx. apply Hi in Hx. subst. exact I.
    - intros u x f Hx. apply Hi in Hx. subst. intros [].
    - intros u x f Hx. apply Hi in Hx. subst. intros [].
  Qed.
End Inv.

(** a state is done because a call of set_value has ended *)
Definition DInv (c : waconf) : Prop := forall f, done (sh c) f = true -> exists u, In (EDone u (WSet f) ROk) (hist c).
Lemma frag_done t e k s s' ns o f : wfrag t e k s = (s', ns, o) -> done s' f = true -> done s f = true \/ k = KStart (WSet f) /\ o = ORet wk wcv ROk.
Proof.
  intros H Hd. destruct k as [[fs|g]|fs j|fs j|fs|fs i|fs j r]; cbn [wfrag] in H;
    repeat match type of H with context [match ?x with _ => _ end] => destruct x end; inversion H; subst; cbn in Hd; auto.
  unfold fupd in Hd. destruct (Nat.eqb_spec f g); subst; auto.
Qed.
Lemma DInv_reachable al n c : reachable (waprog al) n wa0 tt c -> DInv c.
Proof.
  intros H. cut (Inv al c /\ DInv c); [tauto|]. revert c H. apply (reachable_inv (waprog al) (fun c => Inv al c /\ DInv c)).
  - split; [eapply Inv_reachable; exists []; reflexivity|]. intros f Hf. discriminate.
  - intros c c' [HI HD] Hs. split; [eapply Inv_step; eauto|]. destruct Hs as
     [t l op Ht Hp ->|t ps e l op k s' ns o thr' Ht Hfr Hd ->|t p l n0 ns thr' Ht Hd ->
     |t l op cv k Ht ->|t l op cv k k' Ht Hk ->|t l op cv k k' Ht Hk ->|t l op k k' Ht Hk ->]; try exact HD.
    + intros f Hf. destruct (HD f Hf) as [u Hu]. exists u. right. exact Hu.
    + intros f Hf. cbn [sh hist] in *. destruct (frag_done _ _ _ _ f Hfr Hf) as [Hf'|[-> ->]].
      * destruct (HD f Hf') as [u Hu]. exists u. destruct o; cbn; auto.
      * destruct (v_st HI _ Ht) as [Hk _]. cbn in Hk. subst. exists t. cbn. auto.
Qed.

(** the mutexes held and wanted *)
Lemma increasing_tail f fs : increasing (f :: fs) = true -> increasing fs = true.
Proof. destruct fs; auto. simpl. intros H. apply andb_prop in H. tauto. Qed.
Lemma increasing_head fs : forall f g, increasing (f :: fs) = true -> In g fs -> f < g.
Proof.
  induction fs as [|h fs IH]; intros f g H Hg; [destruct Hg|]. pose proof (increasing_tail _ _ H) as Ht. simpl in H. apply andb_prop in H as [H _]. apply Nat.ltb_lt in H.
  destruct Hg as [<-|Hg]; auto. specialize (IH _ _ Ht Hg). lia.
Qed.
Lemma increasing_firstn fs : forall j f g, increasing fs = true -> In f (firstn j fs) -> nth_error fs j = Some g -> f < g.
Proof.
  induction fs as [|h fs IH]; intros [|j] f g Hi Hf Hg; try (destruct Hf; fail); try discriminate. simpl in Hf, Hg. destruct Hf as [<-|Hf].
  - eapply increasing_head; eauto. eapply nth_error_In; eauto.
  - eapply IH; eauto. eapply increasing_tail; eauto.
Qed.
Lemma owner_wants c f u : Inv ordered c -> quiescent c -> own (sh c) f = Some u -> exists g v, f < g /\ own (sh c) g = Some v.
Proof.
  intros I Hq Ho. destruct (v_own I _ Ho) as (x & Hx & Hin). pose proof (v_st I _ Hx) as Hst.
  destruct (quiescent_settled Hq Hx) as [(l & ->)|(l & op & cv & k & ->)]; [destruct Hin|]. cbn in Hin, Hst.
  destruct Hst as (Hk & Hal & Hb). destruct cv as [w|]; cbn in Hb.
  - destruct Hb as (_ & fs & -> & _). destruct Hin.
  - destruct Hb as (g & v & Hw & Hv). destruct k as [op'|fs j|fs j|fs|fs i|fs j r]; cbn in Hin, Hw; try contradiction.
    destruct Hk as [-> Hj]. destruct (nth_error fs j) as [g'|] eqn:En; [|destruct Hw]. destruct Hw as [ -> |[]]. exists g, v. split; auto. eapply increasing_firstn; eauto.
Qed.
Lemma holds_bound (l : list tst) : exists N, forall u x f, nth_error l u = Some x -> In f (holds x) -> f < N.
Proof.
  induction l as [|y l [N IH]]; [exists 0; intros [|u] x f H; discriminate|]. exists (N + S (list_sum (holds y))). intros [|u] x f H Hf; simpl in H.
  - injection H as <-. assert (f <= list_sum (holds y)); [|lia]. clear -Hf. induction (holds y) as [|g q IHq]; [destruct Hf|]. destruct Hf as [<-|Hf]; simpl; [lia|]. specialize (IHq Hf). lia.
  - specialize (IH _ _ _ H Hf). lia.
Qed.
Lemma all_free c : Inv ordered c -> quiescent c -> forall f, own (sh c) f = None.
Proof.
  intros I Hq f. destruct (own (sh c) f) as [u|] eqn:E; auto. exfalso. destruct (holds_bound (thr c)) as [N HN].
  assert (K : forall m, exists g v, m <= g /\ own (sh c) g = Some v).
  { induction m as [|m (g & v & H1 & H2)]; [exists f, u; split; auto; lia|]. destruct (owner_wants g I Hq H2) as (g' & v' & H3 & H4); auto. exists g', v'. split; auto. lia. }
  destruct (K N) as (g & v & H1 & H2). destruct (v_own I _ H2) as (x & Hx & Hin). specialize (HN _ _ _ Hx Hin). lia.
Qed.
Lemma ordered_rest n c : reachable (waprog ordered) n wa0 tt c -> quiescent c ->
  forall t l op cv k, nth_error (thr c) t = Some (Asleep l op cv k) -> exists fs, op = WWait fs /\ cv = CW t /\ forall f, In f fs -> done (sh c) f = false.
Proof.
  intros Hr Hq t l op cv k Ht. pose proof (Inv_reachable Hr) as I. destruct (v_st I _ Ht) as (Hk & _ & Hb). destruct cv as [w|]; cbn in Hb.
  - destruct Hb as (-> & fs & -> & Hd). exists fs. auto.
  - destruct Hb as (f & u & _ & Ho). rewrite (all_free I Hq) in Ho. discriminate.
Qed.

