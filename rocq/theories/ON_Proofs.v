(** * Proofs about boost::call_once *)

From Verif Require Import MonWake ON_Model ON_Spec.

Notation tst := (tstat okp oop unit unit).

(** What one fragment of an implementation of call_once does, seen through [view] and [log]. *)
Section Generic.
  Variable S : Type.
  Variable P : prog S okp oop ores unit unit bool.
  Variable view : S -> nat -> fstate.
  Variable log : S -> list cbev.
  Variable J : S -> Prop.           (* invariant of the representation *)
  Variable okb : S -> Prop.         (* within the stated range *)
  Variable pc : S -> Prop.          (* what is known when a callable has ended normally *)
  Notation conf := (cfg S okp oop ores unit unit).

  Definition same (s s' : S) : Prop := log s' = log s /\ forall g, view s' g = view s g.
  Definition sets (s s' : S) (g : nat) (v : fstate) : Prop := forall x, view s' x = if x =? g then v else view s x.

  Definition frag_spec : Prop := forall t e k s s' ns o,
    frag P t e k s = (s', ns, o) -> J s -> okb s' ->
    match k with KCommit _ => pc s | _ => True end ->
    okb s /\ J s' /\
    match k with
    | KStart g => same s s' /\ ns = [] /\
        ((view s g = Inited /\ o = ORet okp unit RSkip) \/ o = oyield (KEnter g))
    | KEnter g =>
        match view s g with
        | Uninit => sets s s' g InProg /\ log s' = CbStart t g :: log s /\ ns = [] /\ o = oyield (KBody g)
        | InProg => same s s' /\ ns = [] /\ o = OSleep ores tt (KEnter g)
        | Inited => same s s' /\ ns = [] /\ o = ORet okp unit RSkip
        end
    | KBody g => (forall x, view s' x = view s x) /\ ns = [] /\
        ((log s' = CbThrow t g :: log s /\ o = oyield (KRoll g)) \/
         (log s' = CbEnd t g :: log s /\ o = oyield (KCommit g)))
    | KCommit g => sets s s' g Inited /\ log s' = log s /\
        ((ns = [] /\ o = OFin okp RRan [NAll tt]) \/ (ns = [NAll tt] /\ o = ORet okp unit RRan))
    | KRoll g => sets s s' g Uninit /\ log s' = log s /\
        ((ns = [] /\ o = OFin okp RThrew [NAll tt]) \/ (ns = [NAll tt] /\ o = ORet okp unit RThrew))
    end.

  Hypothesis Hfrag : frag_spec.
  Hypothesis Hokb : forall t e k s s' ns o, frag P t e k s = (s', ns, o) -> okb s' -> okb s.
  Hypothesis Hokb2 : forall t e k s s' ns o, frag P t e k s = (s', ns, o) -> okb s ->
    match k with KStart _ | KEnter _ => okb s' | _ => True end.
  Hypothesis Hstart : start P = fun op => let 'Once g := op in KStart g.
  Hypothesis Hto : forall k, on_timeout P k = None.
  Hypothesis Hin : forall k, on_intr P k = None.
  Hypothesis Hceq : ceqb P = fun _ _ => true.

  Definition kflag (k : okp) : nat := match k with KStart g | KEnter g | KBody g | KCommit g | KRoll g => g end.
  Definition stat (x : tst) : Prop :=
    match x with
    | Ready _ _ op k => op = Once (kflag k)
    | Asleep _ op _ k => op = Once (kflag k) /\ k = KEnter (kflag k)
    | Tail _ _ _ ns => ns = [NAll tt]
    | Crashed _ _ _ _ => False
    | _ => True
    end.

  Definition bw (g : nat) (x : tst) : nat := match x with Ready _ _ _ (KBody g') => if g' =? g then 1 else 0 | _ => 0 end.
  Definition cw (g : nat) (x : tst) : nat := match x with Ready _ _ _ (KCommit g') => if g' =? g then 1 else 0 | _ => 0 end.
  Definition rw (g : nat) (x : tst) : nat := match x with Ready _ _ _ (KRoll g') => if g' =? g then 1 else 0 | _ => 0 end.
  Definition tw (x : tst) : nat := match x with Tail _ _ _ _ => 1 | _ => 0 end.
  Definition sw (g : nat) (x : tst) : nat := match x with Asleep _ (Once g') _ _ => if g' =? g then 1 else 0 | _ => 0 end.

  (** The numbers for one flag. *)
  Record Cnt (v : fstate) (lg : list cbev) (g B C R T Sl : nat) : Prop := {
    k_in : B + C + R = match v with InProg => 1 | _ => 0 end;
    k_end : ends g lg = C + match v with Inited => 1 | _ => 0 end;
    k_starts : starts g lg = ends g lg + throws g lg + B;
    k_sleep : T = 0 -> 0 < Sl -> v = InProg
  }.


  (** The newest event of the flag a thread is working on. *)
  Definition mine (lg : list cbev) (t : nat) (x : tst) : Prop :=
    match x with
    | Ready _ _ _ (KBody g) => last_ev g lg = Some (CbStart t g)
    | Ready _ _ _ (KCommit g) => last_ev g lg = Some (CbEnd t g)
    | Ready _ _ _ (KRoll g) => last_ev g lg = Some (CbThrow t g)
    | _ => True
    end.


  Definition cnt (s : S) (l : list tst) (g : nat) : Prop :=
    Cnt (view s g) (log s) g (sumw (bw g) l) (sumw (cw g) l) (sumw (rw g) l) (sumw tw l) (sumw (sw g) l).

  Record Inv (c : conf) : Prop := {
    i_J : J (sh c);
    i_stat : Forall stat (thr c);
    i_cnt : forall g, cnt (sh c) (thr c) g;
    i_mine : forall t x, nth_error (thr c) t = Some x -> mine (log (sh c)) t x;
    i_log : well_nested (log (sh c))
  }.

  Lemma stat_wake x : is_asleep x = true -> stat x -> stat (wake x).
  Proof. destruct x; simpl; tauto. Qed.

  Lemma cnt_upd s l s' t x y g :
    nth_error l t = Some x ->
    (forall B C R T Sl, Sl + sw g x = sumw (sw g) l ->
       Cnt (view s g) (log s) g (B + bw g x) (C + cw g x) (R + rw g x) (T + tw x) (Sl + sw g x) ->
       Cnt (view s' g) (log s') g (B + bw g y) (C + cw g y) (R + rw g y) (T + tw y) (Sl + sw g y)) ->
    cnt s l g -> cnt s' (upd l t y) g.
  Proof.
    intros Ht H Hc. unfold cnt in *.
    pose proof (sumw_upd (bw g) y Ht). pose proof (sumw_upd (cw g) y Ht). pose proof (sumw_upd (rw g) y Ht).
    pose proof (sumw_upd tw y Ht). pose proof (sumw_upd (sw g) y Ht).
    pose proof (sumw_ge (bw g) Ht). pose proof (sumw_ge (cw g) Ht). pose proof (sumw_ge (rw g) Ht).
    pose proof (sumw_ge tw Ht). pose proof (sumw_ge (sw g) Ht).
    replace (sumw (bw g) (upd l t y)) with ((sumw (bw g) l - bw g x) + bw g y) by lia.
    replace (sumw (cw g) (upd l t y)) with ((sumw (cw g) l - cw g x) + cw g y) by lia.
    replace (sumw (rw g) (upd l t y)) with ((sumw (rw g) l - rw g x) + rw g y) by lia.
    replace (sumw tw (upd l t y)) with ((sumw tw l - tw x) + tw y) by lia.
    replace (sumw (sw g) (upd l t y)) with ((sumw (sw g) l - sw g x) + sw g y) by lia.
    apply H; [lia|].
    replace (sumw (bw g) l - bw g x + bw g x) with (sumw (bw g) l) by lia.
    replace (sumw (cw g) l - cw g x + cw g x) with (sumw (cw g) l) by lia.
    replace (sumw (rw g) l - rw g x + rw g x) with (sumw (rw g) l) by lia.
    replace (sumw tw l - tw x + tw x) with (sumw tw l) by lia.
    replace (sumw (sw g) l - sw g x + sw g x) with (sumw (sw g) l) by lia. exact Hc.
  Qed.

  (** After a broadcast nobody sleeps; nothing else changes. *)
  Lemma wake_all l : Forall stat l ->
    let l' := map (wake_if P tt) l in
    Forall stat l' /\ (forall g, sumw (sw g) l' = 0) /\ (forall g, sumw (bw g) l' = sumw (bw g) l) /\
    (forall g, sumw (cw g) l' = sumw (cw g) l) /\ (forall g, sumw (rw g) l' = sumw (rw g) l) /\
    sumw tw l' = sumw tw l.
  Proof.
    intros HF. cbv zeta. assert (E : forall x, wake_if P tt x = wake x).
    { intros x. unfold wake_if. destruct x; simpl; auto. rewrite Hceq. auto. }
    rewrite (map_ext _ _ E). rewrite Forall_forall in HF.
    assert (HS : forall x, In x l -> match x with Asleep _ op _ k => op = Once (kflag k) /\ k = KEnter (kflag k) | _ => True end).
    { intros x Hx. specialize (HF x Hx). destruct x; auto. }
    repeat split.
    - apply Forall_forall. intros y Hy. apply in_map_iff in Hy as (x & <- & Hx). specialize (HF x Hx).
      destruct x; simpl in *; tauto.
    - intros g. rewrite sumw_map. apply sumw_zero. intros x _. destruct x; auto.
    - intros g. rewrite sumw_map. apply sumw_ext. intros x Hx. specialize (HS x Hx).
      destruct x as [| |? ? ? k| |]; simpl; auto. destruct HS as [_ ->]. auto.
    - intros g. rewrite sumw_map. apply sumw_ext. intros x Hx. specialize (HS x Hx).
      destruct x as [| |? ? ? k| |]; simpl; auto. destruct HS as [_ ->]. auto.
    - intros g. rewrite sumw_map. apply sumw_ext. intros x Hx. specialize (HS x Hx).
      destruct x as [| |? ? ? k| |]; simpl; auto. destruct HS as [_ ->]. auto.
    - rewrite sumw_map. apply sumw_ext. intros x Hx. destruct x; auto.
  Qed.

  Lemma cnt_wake s l g : Forall stat l -> cnt s l g ->
    Cnt (view s g) (log s) g (sumw (bw g) (map (wake_if P tt) l)) (sumw (cw g) (map (wake_if P tt) l))
      (sumw (rw g) (map (wake_if P tt) l)) (sumw tw (map (wake_if P tt) l)) 0.
  Proof.
    intros HF []. destruct (wake_all l HF) as (H1 & H2 & H3 & H4 & H5 & H6).
    rewrite H3, H4, H5, H6. constructor; auto. lia.
  Qed.

  Lemma ends_cons e g lg : ends g (e :: lg) = (if is_end g e then 1 else 0) + ends g lg.
  Proof. unfold ends; simpl; destruct (is_end g e); auto. Qed.
  Lemma starts_cons e g lg : starts g (e :: lg) = (if is_start g e then 1 else 0) + starts g lg.
  Proof. unfold starts; simpl; destruct (is_start g e); auto. Qed.
  Lemma throws_cons e g lg : throws g (e :: lg) = (if is_throw g e then 1 else 0) + throws g lg.
  Proof. unfold throws; simpl; destruct (is_throw g e); auto. Qed.

  Ltac num :=
    intros; match goal with H : Cnt _ _ _ _ _ _ _ _ |- _ => destruct H end;
    constructor; simpl in *;
    rewrite ?ends_cons, ?starts_cons, ?throws_cons in *; simpl in *;
    repeat match goal with
    | |- context [?a =? ?b] => destruct (Nat.eqb_spec a b); subst
    | H : context [?a =? ?b] |- _ => destruct (Nat.eqb_spec a b); subst
    end; try lia; auto.


  Lemma in_stage s l t x g : cnt s l g -> nth_error l t = Some x -> 0 < bw g x + cw g x + rw g x -> view s g = InProg.
  Proof.
    intros [] Ht Hx. pose proof (sumw_ge (bw g) Ht). pose proof (sumw_ge (cw g) Ht). pose proof (sumw_ge (rw g) Ht).
    destruct (view s g); auto; lia.
  Qed.
  Lemma one_stage s l t x t' x' g : cnt s l g -> nth_error l t = Some x -> nth_error l t' = Some x' -> t <> t' ->
    0 < bw g x + cw g x + rw g x -> bw g x' + cw g x' + rw g x' = 0.
  Proof.
    intros [] Ht Ht' Hne Hx. pose proof (sumw_ge2 (bw g) Hne Ht Ht'). pose proof (sumw_ge2 (cw g) Hne Ht Ht').
    pose proof (sumw_ge2 (rw g) Hne Ht Ht'). destruct (view s g); lia.
  Qed.

  Lemma mine_cons lg t x e :
    (forall g, 0 < bw g x + cw g x + rw g x -> ev_flag e <> g) -> mine lg t x -> mine (e :: lg) t x.
  Proof.
    intros H Hm. destruct x as [|l op []| | |]; simpl in *; auto;
      specialize (H g); rewrite Nat.eqb_refl in H; unfold last_ev; simpl;
      (destruct (Nat.eqb_spec (ev_flag e) g); [exfalso; apply H; auto; lia|exact Hm]).
  Qed.

  Lemma log_ok_cons e lg : well_nested lg ->
    match e with CbStart _ g => ends g lg = 0 /\ starts g lg = throws g lg | _ => True end -> well_nested (e :: lg).
  Proof.
    intros H He l1 t g l2 E. destruct l1 as [|e' l1]; simpl in E.
    - injection E as -> ->. auto.
    - injection E as <- ->. eapply H; eauto.
  Qed.

  Lemma mine_wake lg l t x : (forall t x, nth_error l t = Some x -> mine lg t x) -> Forall stat l ->
    nth_error (map (wake_if P tt) l) t = Some x -> mine lg t x.
  Proof.
    intros H HF Hx. rewrite nth_error_map in Hx. destruct (nth_error l t) as [y|] eqn:Hy; [|discriminate].
    simpl in Hx. injection Hx as <-. pose proof (Forall_nth_error HF Hy) as Hs. specialize (H t y Hy).
    unfold wake_if. destruct (asleep_on P tt y); auto.
    destruct y as [| |l0 op cv k| |]; simpl in *; auto. destruct Hs as [_ ->]. exact I.
  Qed.

  Lemma mine_upd lg l t y : (forall t' x, t' <> t -> nth_error l t' = Some x -> mine lg t' x) -> mine lg t y ->
    forall t' x, nth_error (upd l t y) t' = Some x -> mine lg t' x.
  Proof.
    intros H Hy t' x Hx. apply nth_error_upd in Hx as [(<- & -> & _)|(Hne & Hx)]; auto.
  Qed.


  Lemma Inv_frag c t ps e l op k s' ns o thr' :
    okb s' -> Inv c -> nth_error (thr c) t = Some (Ready unit l op k) ->
    match k with KCommit _ => pc (sh c) | _ => True end ->
    frag P t e k (sh c) = (s', ns, o) -> deliver_all P ns ps (thr c) = Some thr' ->
    Inv (MkCfg s' (upd thr' t (fst (after P t l op o (hist c)))) (snd (after P t l op o (hist c)))).
  Proof.
    intros Hok HI Ht Hpc Hfr Hd.
    assert (Hns : ns = [] \/ ns = [NAll tt]).
    { destruct HI as [HJ _ _ _ _]. destruct (Hfrag _ _ _ _ _ _ _ Hfr HJ Hok Hpc) as (_ & _ & HE).
      destruct k; [| destruct (view (sh c) g)| | |]; intuition. }
    assert (HI' : Inv (MkCfg (sh c) thr' (hist c)) /\ (ns = [NAll tt] -> forall g, sumw (sw g) thr' = 0) /\
                  nth_error thr' t = Some (Ready unit l op k)).
    { destruct Hns as [-> | ->]; simpl in Hd; injection Hd as <-.
      - split; [|split; [discriminate|exact Ht]]. destruct HI; constructor; auto.
      - destruct HI as [HJ Hst Hc Hm Hl]. split; [|split].
        + constructor; cbn [sh thr]; auto.
          * apply wake_all; auto.
          * intros g. unfold cnt. rewrite (proj1 (proj2 (wake_all _ Hst))). apply cnt_wake; auto.
          * intros t' x. apply mine_wake; auto.
        + intros _ g. apply wake_all; auto.
        + rewrite nth_error_map, Ht. simpl. auto. }
    clear HI Ht Hd. destruct HI' as ([HJ Hst Hc Hm Hl] & Hz & Ht). cbn [sh thr] in *.
    destruct (Hfrag _ _ _ _ _ _ _ Hfr HJ Hok Hpc) as (Hok0 & HJ' & HE).
    pose proof (Forall_nth_error Hst Ht) as Hx. simpl in Hx. pose proof (Hm t _ Ht) as Hmt.
    pose proof (Hc (kflag k)) as Hck.
    destruct k as [g|g|g|g|g]; simpl in Hx, Hmt, Hck.
    - destruct HE as ((El & Ev) & Hn & Ho).
      destruct Ho as [[Hv ->]| ->]; (constructor; cbn [sh thr hist]; simpl; [exact HJ'|apply Forall_upd; simpl; auto
        |intros g'; eapply (cnt_upd (sh c)); [exact Ht| |apply Hc]; rewrite Ev, El; num
        |rewrite El; apply mine_upd; simpl; auto|rewrite El; auto]).
    - destruct (view (sh c) g) eqn:Hv.
      + destruct HE as (Ev & El & Hn & ->). constructor; cbn [sh thr hist]; auto; simpl.
        * apply Forall_upd; simpl; auto.
        * intros g'. eapply (cnt_upd (sh c)); [exact Ht| |apply Hc]. rewrite Ev, El. destruct (Nat.eqb_spec g' g) as [->|Hne]; [rewrite Hv|]; num.
        * rewrite El. apply mine_upd.
          -- intros t' x Hne Hx'. apply mine_cons; auto. intros g' Hs' <-. simpl in Hs'.
             rewrite (in_stage _ _ _ _ _ (Hc g) Hx' Hs') in Hv. discriminate.
          -- simpl. unfold last_ev; simpl. rewrite Nat.eqb_refl. auto.
        * rewrite El. apply log_ok_cons; auto. destruct Hck. rewrite Hv in *. lia.
      + destruct HE as ((El & Ev) & Hn & ->). constructor; cbn [sh thr hist]; auto; simpl.
        * apply Forall_upd; simpl; auto.
        * intros g'. eapply (cnt_upd (sh c)); [exact Ht| |apply Hc]. rewrite Ev, El. rewrite Hx. num.
        * rewrite El. apply mine_upd; simpl; auto.
        * rewrite El; auto.
      + destruct HE as ((El & Ev) & Hn & ->). constructor; cbn [sh thr hist]; auto; simpl.
        * apply Forall_upd; simpl; auto.
        * intros g'. eapply (cnt_upd (sh c)); [exact Ht| |apply Hc]. rewrite Ev, El. num.
        * rewrite El. apply mine_upd; simpl; auto.
        * rewrite El; auto.
    - destruct HE as (Ev & Hn & Ho).
      assert (Hothers : forall e, ev_flag e = g -> forall t' x, t' <> t -> nth_error thr' t' = Some x ->
                mine (e :: log (sh c)) t' x).
      { intros e0 He0 t' x Hne Hx'. apply mine_cons; auto. intros g' Hs' Heq. rewrite He0 in Heq. subst g'.
        assert (0 < bw g (Ready unit l op (KBody g)) + cw g (Ready unit l op (KBody g)) + rw g (Ready unit l op (KBody g)))
          by (simpl; rewrite Nat.eqb_refl; lia).
        pose proof (one_stage _ _ _ _ _ _ _ Hck Ht Hx' (not_eq_sym Hne) H). lia. }
      destruct Ho as [[El ->]|[El ->]]; (constructor; cbn [sh thr hist]; simpl; [exact HJ'|apply Forall_upd; simpl; auto
        |intros g'; eapply (cnt_upd (sh c)); [exact Ht| |apply Hc]; rewrite Ev, El; num
        |rewrite El; apply mine_upd; [apply Hothers; reflexivity|simpl; unfold last_ev; simpl; rewrite Nat.eqb_refl; auto]
        |rewrite El; apply log_ok_cons; auto]).
    - destruct HE as (Ev & El & Ho).
      assert (Hon : match o with OFin _ r ns' => ns' = [NAll tt] /\ r = RRan | ORet _ _ r => r = RRan /\ (forall g, sumw (sw g) thr' = 0) | _ => False end)
        by (destruct Ho as [[Hn ->]|[Hn ->]]; auto).
      constructor; cbn [sh thr hist]; auto.
      + apply Forall_upd; auto. destruct o as [| r [|]| | |]; simpl; try tauto; intuition discriminate.
      + intros g'. eapply (cnt_upd (sh c)); [exact Ht| |apply Hc]. rewrite Ev, El. intros B C R T Sl HS. destruct o as [r|r ns'| | |]; try tauto.
        * destruct Hon as [-> Hz']. rewrite Hz' in HS. destruct (Nat.eqb_spec g' g) as [->|Hne]; num.
          all: destruct (view (sh c) g); lia.
        * destruct Hon as [-> ->]. destruct (Nat.eqb_spec g' g) as [->|Hne]; num.
          all: destruct (view (sh c) g); lia.
      + rewrite El. apply mine_upd; auto. destruct o as [r|r [|]| | |]; simpl; tauto.
      + rewrite El; auto.
    - destruct HE as (Ev & El & Ho).
      assert (Hon : match o with OFin _ r ns' => ns' = [NAll tt] /\ r = RThrew | ORet _ _ r => r = RThrew /\ (forall g, sumw (sw g) thr' = 0) | _ => False end)
        by (destruct Ho as [[Hn ->]|[Hn ->]]; auto).
      constructor; cbn [sh thr hist]; auto.
      + apply Forall_upd; auto. destruct o as [| r [|]| | |]; simpl; try tauto; intuition discriminate.
      + intros g'. eapply (cnt_upd (sh c)); [exact Ht| |apply Hc]. rewrite Ev, El. intros B C R T Sl HS. destruct o as [r|r ns'| | |]; try tauto.
        * destruct Hon as [-> Hz']. rewrite Hz' in HS. destruct (Nat.eqb_spec g' g) as [->|Hne]; num.
          all: destruct (view (sh c) g); lia.
        * destruct Hon as [-> ->]. destruct (Nat.eqb_spec g' g) as [->|Hne]; num.
          all: destruct (view (sh c) g); lia.
      + rewrite El. apply mine_upd; auto. destruct o as [r|r [|]| | |]; simpl; tauto.
      + rewrite El; auto.
  Qed.

  Lemma Inv_step c c' : okb (sh c') -> Inv c ->
    (forall t l op g, nth_error (thr c) t = Some (Ready unit l op (KCommit g)) -> pc (sh c)) ->
    stepcase P c c' -> Inv c'.
  Proof.
    intros Hok HI Hpc Hs. destruct Hs as
     [t l op Ht Hp ->|t ps e l op k s' ns o thr' Ht Hfr Hd ->|t p l n ns thr' Ht Hd ->
     |t l op cv k Ht ->|t l op cv k k' Ht Hk ->|t l op cv k k' Ht Hk ->|t l op k k' Ht Hk ->];
     cbn [sh thr hist] in *; try (rewrite ?Hto, ?Hin in Hk; discriminate).
    - destruct HI as [HJ Hst Hc Hm Hl]. constructor; cbn [sh thr hist]; auto.
      + apply Forall_upd; auto. simpl. rewrite Hstart. destruct op; reflexivity.
      + intros g. eapply (cnt_upd (sh c)); [exact Ht| |apply Hc]. rewrite Hstart. destruct op. num.
      + apply mine_upd; auto. rewrite Hstart. destruct op. exact I.
    - eapply Inv_frag; eauto. destruct k; eauto.
    - destruct HI as [HJ Hst Hc Hm Hl]. pose proof (Forall_nth_error Hst Ht) as Hx. simpl in Hx.
      injection Hx as -> ->. simpl in Hd. injection Hd as <-.
      destruct (wake_all _ Hst) as (H1 & H2 & H3 & H4 & H5 & H6).
      constructor; cbn [sh thr hist]; auto.
      + apply Forall_upd; simpl; auto.
      + intros g. eapply cnt_upd; [rewrite nth_error_map, Ht; simpl; reflexivity| |].
        2: { unfold cnt. rewrite H2. apply cnt_wake; eauto. }
        rewrite H2. simpl. intros. num.
      + apply mine_upd; [|exact I]. intros t' x _. apply mine_wake; auto.
    - destruct HI as [HJ Hst Hc Hm Hl]. pose proof (Forall_nth_error Hst Ht) as Hx. simpl in Hx.
      destruct Hx as [-> Hx]. destruct k; simpl in Hx; try discriminate.
      constructor; cbn [sh thr hist]; auto.
      + apply Forall_upd; simpl; auto.
      + intros g0. eapply (cnt_upd (sh c)); [exact Ht| |apply Hc]. num. intros; apply k_sleep0; lia.
      + apply mine_upd; [auto|]. exact I.
  Qed.

  Lemma step_okb c lb c' : step P c lb = Some c' -> okb (sh c') -> okb (sh c).
  Proof.
    intros Hs. apply step_inv in Hs. destruct Hs as
     [t l op Ht Hp ->|t ps e l op k s' ns o thr' Ht Hfr Hd ->|t p l n ns thr' Ht Hd ->
     |t l op cv k Ht ->|t l op cv k k' Ht Hk ->|t l op cv k k' Ht Hk ->|t l op k k' Ht Hk ->]; cbn [sh]; auto.
    eauto.
  Qed.

  Variable s0 : S.
  Hypothesis Hpcr : forall n c t l op g, reachable P n s0 tt c -> okb (sh c) ->
    nth_error (thr c) t = Some (Ready unit l op (KCommit g)) -> pc (sh c).
  Hypothesis H0 : J s0 /\ (forall g, view s0 g = Uninit) /\ log s0 = [].

  Lemma Inv_reachable n c : reachable P n s0 tt c -> okb (sh c) -> Inv c.
  Proof.
    intros [ls Hls]. revert ls c Hls.
    apply (@run_snoc_ind _ _ _ _ _ _ _ P (init okp oop ores unit n s0 tt) (fun ls c => okb (sh c) -> Inv c)).
    - intros _. destruct H0 as (HJ & Hv & Hl). constructor; cbn [init sh thr]; auto.
      + apply Forall_forall. intros x Hx. apply repeat_spec in Hx. subst x. exact I.
      + intros g. unfold cnt. rewrite !sumw_repeat, Hv, Hl. simpl. rewrite !Nat.mul_0_r. constructor; auto. lia.
      + intros t x Hx. apply nth_error_In, repeat_spec in Hx. subst x. exact I.
      + rewrite Hl. intros [|] t g l2; discriminate.
    - intros ls c lb c' Hr IH Hs Hok. pose proof (step_okb _ _ _ Hs Hok) as Hok0.
      eapply Inv_step; eauto; [|eapply step_inv; eauto].
      intros t l op g Ht. apply (Hpcr n c t l op g); auto. exists ls. auto.
  Qed.

  (** ** Consequences *)

  Lemma gen_once n c g : reachable P n s0 tt c -> okb (sh c) ->
    ends g (log (sh c)) <= 1 /\ well_nested (log (sh c)).
  Proof.
    intros Hr Hok. destruct (Inv_reachable _ _ Hr Hok) as [HJ Hst Hc Hm Hl]. split; auto.
    destruct (Hc g). destruct (view (sh c) g); lia.
  Qed.

  Lemma gen_one_at_a_time n c t t' g : reachable P n s0 tt c -> okb (sh c) ->
    executing c t g -> executing c t' g -> t = t'.
  Proof.
    intros Hr Hok (l & op & H1) (l' & op' & H2). destruct (Inv_reachable _ _ Hr Hok) as [HJ Hst Hc Hm Hl].
    destruct (Nat.eq_dec t t') as [|Hne]; auto.
    pose proof (one_stage _ _ _ _ _ _ _ (Hc g) H1 H2 Hne) as H. simpl in H. rewrite Nat.eqb_refl in H. lia.
  Qed.

  Lemma gen_done n c lb c' t g r : reachable P n s0 tt c -> okb (sh c') -> step P c lb = Some c' ->
    hist c' = EDone t (Once g) r :: hist c ->
    match r with
    | RRan => last_ev g (log (sh c')) = Some (CbEnd t g)
    | RSkip => ends g (log (sh c')) = 1
    | RThrew => last_ev g (log (sh c')) = Some (CbThrow t g)
    end.
  Proof.
    intros Hr Hok Hs Hh. pose proof (step_okb _ _ _ Hs Hok) as Hok1.
    destruct (Inv_reachable _ _ Hr Hok1) as [HJ Hst Hc Hm Hl].
    apply step_inv in Hs. destruct Hs as
     [t' l op Ht Hp ->|t' ps e l op k s' ns o thr' Ht Hfr Hd ->|t' p l n' ns thr' Ht Hd ->
     |t' l op cv k Ht ->|t' l op cv k k' Ht Hk ->|t' l op cv k k' Ht Hk ->|t' l op k k' Ht Hk ->];
     cbn [sh thr hist] in *; try discriminate; try (apply (f_equal (@length _)) in Hh; simpl in Hh; lia).
    assert (Hpc : match k with KCommit _ => pc (sh c) | _ => True end) by (destruct k; auto; eapply (Hpcr n); eauto).
    destruct (Hfrag _ _ _ _ _ _ _ Hfr HJ Hok Hpc) as (Hok0 & HJ' & HE).
    pose proof (Forall_nth_error Hst Ht) as Hx. simpl in Hx. pose proof (Hm _ _ Ht) as Hmt.
    pose proof (Hc (kflag k)) as [].
    destruct k as [g'|g'|g'|g'|g']; simpl in *.
    - destruct HE as ((El & Ev) & -> & [[Hv ->]| ->]); simpl in Hh.
      + rewrite Hx in Hh. inversion Hh; subst. rewrite El, k_end0, Hv in *. lia.
      + apply (f_equal (@length _)) in Hh; simpl in Hh; lia.
    - destruct (view (sh c) g') eqn:Hv.
      + destruct HE as (_ & _ & -> & ->). simpl in Hh. apply (f_equal (@length _)) in Hh; simpl in Hh; lia.
      + destruct HE as (_ & -> & ->). simpl in Hh. apply (f_equal (@length _)) in Hh; simpl in Hh; lia.
      + destruct HE as ((El & Ev) & -> & ->). simpl in Hh. rewrite Hx in Hh. inversion Hh; subst. rewrite El. lia.
    - destruct HE as (_ & -> & [[_ ->]|[_ ->]]); simpl in Hh; apply (f_equal (@length _)) in Hh; simpl in Hh; lia.
    - destruct HE as (_ & El & [[_ ->]|[_ ->]]); simpl in Hh; rewrite Hx in Hh; inversion Hh; subst; rewrite El; auto.
    - destruct HE as (_ & El & [[_ ->]|[_ ->]]); simpl in Hh; rewrite Hx in Hh; inversion Hh; subst; rewrite El; auto.
  Qed.

  Lemma gen_not_stuck n c t g : reachable P n s0 tt c -> okb (sh c) -> only_callables_run c -> stuck c t g ->
    exists t', executing c t' g.
  Proof.
    intros Hr Hok Ho (l & cv & k & Ht). destruct (Inv_reachable _ _ Hr Hok) as [HJ Hst Hc Hm Hl].
    destruct (Hc g) as [k1 k2 k3 k4].
    assert (HT : sumw tw (thr c) = 0).
    { apply sumw_zero. intros x Hx. apply In_nth_error in Hx as [i Hi]. specialize (Ho i x Hi). destruct x; auto; tauto. }
    assert (HS : 0 < sumw (sw g) (thr c)).
    { pose proof (sumw_ge (sw g) Ht). simpl in H. rewrite Nat.eqb_refl in H. lia. }
    rewrite (k4 HT HS) in *.
    assert (HC : sumw (cw g) (thr c) = 0).
    { apply sumw_zero. intros x Hx. apply In_nth_error in Hx as [i Hi]. specialize (Ho i x Hi).
      destruct x as [|? ? []| | |]; simpl; auto; tauto. }
    assert (HR : sumw (rw g) (thr c) = 0).
    { apply sumw_zero. intros x Hx. apply In_nth_error in Hx as [i Hi]. specialize (Ho i x Hi).
      destruct x as [|? ? []| | |]; simpl; auto; tauto. }
    destruct (sumw_pos (bw g) (l:=thr c)) as (i & x & Hi & Hw); [lia|].
    exists i. destruct x as [|? ? []| | |]; simpl in Hw; try lia.
    destruct (Nat.eqb_spec g0 g); [subst|lia]. exists l0, op. auto.
  Qed.

  (** A flag whose callable has not completed and is not being run is open for the next caller. *)
  Lemma gen_retry n c t g l e : reachable P n s0 tt c -> okb (sh c) ->
    quiescent c -> ends g (log (sh c)) = 0 -> nth_error (thr c) t = Some (Idle okp oop unit l) -> pre P l (Once g) = true ->
    exists c', run P c [LCall bool t (Once g); LRun oop t [] e; LRun oop t [] e] = Some c' /\ executing c' t g.
  Proof.
    intros Hr Hok Hq He Ht Hp. destruct (Inv_reachable _ _ Hr Hok) as [HJ Hst Hc Hm Hl].
    destruct (Hc g) as [k1 k2 k3 k4].
    assert (Hz : sumw (bw g) (thr c) = 0 /\ sumw (cw g) (thr c) = 0 /\ sumw (rw g) (thr c) = 0).
    { repeat split; apply sumw_zero; intros x Hx; pose proof (proj1 (forallb_forall _ _) Hq x Hx) as Hs; destruct x; auto; discriminate. }
    assert (Hv : view (sh c) g = Uninit) by (destruct (view (sh c) g); auto; lia).
    cbn [run]. simpl. rewrite Ht, Hp. simpl. rewrite nth_error_upd_same by (eapply nth_error_lt; eauto).
    rewrite Hstart.
    destruct (frag P t e (KStart g) (sh c)) as [[s1 ns1] o1] eqn:F1.
    pose proof (Hokb2 _ _ _ _ _ _ _ F1 Hok) as Hok1. simpl in Hok1.
    destruct (Hfrag _ _ _ _ _ _ _ F1 HJ Hok1 I) as (_ & HJ1 & (El & Ev) & -> & Ho1). simpl.
    destruct Ho1 as [[Hi _]| ->]; [congruence|]. simpl.
    rewrite nth_error_upd_same by (rewrite upd_length; eapply nth_error_lt; eauto).
    destruct (frag P t e (KEnter g) s1) as [[s2 ns2] o2] eqn:F2.
    pose proof (Hokb2 _ _ _ _ _ _ _ F2 Hok1) as Hok2. simpl in Hok2.
    destruct (Hfrag _ _ _ _ _ _ _ F2 HJ1 Hok2 I) as (_ & HJ2 & HE).
    rewrite Ev, Hv in HE. destruct HE as (_ & _ & -> & ->). simpl.
    eexists. split; [reflexivity|]. exists l, (Once g). simpl.
    rewrite nth_error_upd_same; auto. rewrite !upd_length. eapply nth_error_lt; eauto.
  Qed.

  Definition on_rank (k : okp) : nat := match k with KStart _ => 3 | KEnter _ => 2 | KBody _ => 1 | _ => 0 end.
End Generic.

(** ** The atomic implementation *)

Lemma on_frag_spec : frag_spec ostate onprog o_flag o_log (fun _ => True) (fun _ => True) (fun _ => True).
Proof.
  intros t e k s s' ns o Hf _ _ _. split; auto. split; auto. cbn [frag onprog] in Hf.
  destruct k; simpl in Hf; try destruct (o_flag s g) eqn:Hv; try destruct e;
    inversion Hf; subst; clear Hf; unfold same, sets, updf; simpl; auto 10.
Qed.

Lemma on_ranked : ranked onprog on_rank.
Proof.
  intros t e k s s' ns o Hf. cbn [frag onprog] in Hf.
  destruct k; simpl in Hf; try destruct (o_flag s g) eqn:Hv; try destruct e;
    inversion Hf; subst; clear Hf; simpl; auto.
Qed.

(** ** The epoch implementation *)
Section Ep.
  Variable W : nat.
  Hypothesis HW : 3 <= W.

  Definition ev_view (s : estate) (g : nat) : fstate :=
    match e_flag s g with 0 => Uninit | 1 => InProg | _ => Inited end.
  Definition ep_J (s : estate) : Prop :=
    2 <= e_glob s /\ (forall g, e_flag s g <= 1 \/ e_glob s <= e_flag s g) /\ (forall t, e_glob s <= e_thr s t).
  Definition ep_ok (s : estate) : Prop := inits (e_log s) + 3 <= W.
  Definition ep_pc (s : estate) : Prop := 3 <= e_glob s.

  Definition acw (x : tst) : nat := match x with Ready _ _ _ (KCommit _) => 1 | _ => 0 end.
  Definition nosl (x : tst) : Prop :=
    match x with Asleep _ _ _ (KEnter _) => True | Asleep _ _ _ _ | Tail _ _ _ _ => False | _ => True end.

  Lemma inits_cons e lg : inits (e :: lg) = (match e with CbEnd _ _ => 1 | _ => 0 end) + inits lg.
  Proof. unfold inits; simpl; destruct e; auto. Qed.
  Opaque inits.

  Lemma ep_okb t e k s s' ns o : frag (epprog W) t e k s = (s', ns, o) -> ep_ok s' -> ep_ok s.
  Proof.
    intros Hf. cbn [frag epprog] in Hf. unfold ep_ok.
    destruct k; simpl in Hf;
      repeat match type of Hf with context [if ?b then _ else _] => destruct b eqn:? end;
      inversion Hf; subst; clear Hf; simpl; rewrite ?inits_cons; lia.
  Qed.

  Lemma ep_okb2 t e k s s' ns o : frag (epprog W) t e k s = (s', ns, o) -> ep_ok s ->
    match k with KStart _ | KEnter _ => ep_ok s' | _ => True end.
  Proof.
    intros Hf. cbn [frag epprog] in Hf. unfold ep_ok.
    destruct k; simpl in Hf; auto;
      repeat match type of Hf with context [if ?b then _ else _] => destruct b eqn:? end;
      inversion Hf; subst; clear Hf; simpl; rewrite ?inits_cons; lia.
  Qed.

  (** Every initialisation is either committed or about to be. *)
  Definition ep_count (c : cfg estate okp oop ores unit unit) : Prop :=
    Forall nosl (thr c) /\ (ep_ok (sh c) -> e_glob (sh c) + inits (e_log (sh c)) = W - 1 + sumw acw (thr c)).

  Lemma acw_wake l : Forall nosl l -> sumw acw (map (wake_if (epprog W) tt) l) = sumw acw l /\
    Forall nosl (map (wake_if (epprog W) tt) l).
  Proof.
    intros HF. rewrite Forall_forall in HF. split.
    - rewrite sumw_map. apply sumw_ext. intros x Hx. specialize (HF x Hx).
      destruct x as [| |? ? ? []| |]; simpl in *; tauto.
    - apply Forall_forall. intros y Hy. apply in_map_iff in Hy as (x & <- & Hx). specialize (HF x Hx).
      destruct x as [| |? ? ? []| |]; simpl in *; tauto.
  Qed.

  Lemma ep_count_step c c' : ep_count c -> stepcase (epprog W) c c' -> ep_count c'.
  Proof.
    intros [HF HC] Hs. destruct Hs as
     [t l op Ht Hp ->|t ps e l op k s' ns o thr' Ht Hfr Hd ->|t p l n ns thr' Ht Hd ->
     |t l op cv k Ht ->|t l op cv k k' Ht Hk ->|t l op cv k k' Ht Hk ->|t l op k k' Ht Hk ->];
     unfold ep_count; cbn [sh thr hist] in *; try discriminate.
    - split; [apply Forall_upd; simpl; auto|]. intros Hok. specialize (HC Hok).
      pose proof (sumw_upd acw (Ready unit l op (start (epprog W) op)) Ht). destruct op; simpl in *. lia.
    - pose proof (ep_okb _ _ _ _ _ _ _ Hfr) as Hmono. cbn [frag epprog] in Hfr.
      assert (Hns : ns = [] \/ ns = [NAll tt]).
      { clear Hmono. destruct k; simpl in Hfr;
          repeat match type of Hfr with context [if ?b then _ else _] => destruct b eqn:? end;
          inversion Hfr; auto. }
      assert (HF' : Forall nosl thr' /\ sumw acw thr' = sumw acw (thr c) /\ nth_error thr' t = Some (Ready unit l op k)).
      { destruct Hns as [-> | ->]; simpl in Hd; injection Hd as <-; auto.
        destruct (acw_wake _ HF) as [H1 H2]. split; auto. split; auto. rewrite nth_error_map, Ht. auto. }
      destruct HF' as (HF1 & HF2 & HF3). rewrite <- HF2 in HC. split.
      { apply Forall_upd; auto. destruct k; simpl in Hfr;
          repeat match type of Hfr with context [if ?b then _ else _] => destruct b eqn:? end;
          inversion Hfr; subst; simpl; auto. }
      intros Hok. specialize (HC (Hmono Hok)).
      pose proof (sumw_upd acw (fst (after (epprog W) t l op o (hist c))) HF3) as HU.
      pose proof (sumw_ge acw HF3) as HG.
      unfold ep_ok in Hok. destruct k; simpl in Hfr;
        repeat match type of Hfr with context [if ?b then _ else _] => destruct b eqn:? end;
        inversion Hfr; subst; clear Hfr; simpl in *; rewrite ?inits_cons in *; simpl in *; try lia;
        destruct (e_glob (sh c)); simpl in *; lia.
    - pose proof (Forall_nth_error HF Ht) as Hx. simpl in Hx. contradiction.
    - split; [apply Forall_upd; simpl; auto|]. intros Hok. specialize (HC Hok).
      pose proof (Forall_nth_error HF Ht) as Hx. pose proof (sumw_upd acw (Ready unit l op k) Ht).
      destruct k; simpl in *; try tauto; lia.
  Qed.

  Lemma ep_count_reachable n c : reachable (epprog W) n (ep_init W) tt c -> ep_count c.
  Proof.
    apply (reachable_inv (epprog W) ep_count); [|apply ep_count_step]. split.
    - apply Forall_forall. intros x Hx. apply repeat_spec in Hx. subst x. exact I.
    - intros _. simpl. rewrite sumw_repeat. simpl. change (inits []) with 0. lia.
  Qed.

  Lemma ep_pcr n c t l op g : reachable (epprog W) n (ep_init W) tt c -> ep_ok (sh c) ->
    nth_error (thr c) t = Some (Ready unit l op (KCommit g)) -> ep_pc (sh c).
  Proof.
    intros Hr Hok Ht. destruct (ep_count_reachable _ _ Hr) as [_ HC]. specialize (HC Hok).
    pose proof (sumw_ge acw Ht) as H. simpl in H. unfold ep_pc, ep_ok in *. lia.
  Qed.

  Lemma ep_frag_spec : frag_spec estate (epprog W) ev_view e_log ep_J ep_ok ep_pc.
  Proof.
    intros t e k s s' ns o Hf (HJ1 & HJ2 & HJ3) Hok Hpc. split; [eapply ep_okb; eauto|].
    cbn [frag epprog] in Hf.
    destruct k as [g|g|g|g|g]; simpl in Hf.
    - destruct (Nat.ltb_spec (e_flag s g) (e_thr s t)); inversion Hf; subst; clear Hf.
      + split; [repeat split; auto|]. split; [split; auto|]. auto.
      + split; [repeat split; auto|]. split; [split; auto|]. split; auto. left. split; auto.
        specialize (HJ3 t). specialize (HJ2 g). unfold ev_view. destruct (e_flag s' g) as [|[|]]; auto; lia.
    - unfold ev_view at 1. destruct (e_flag s g) as [|[|v]] eqn:Hv; simpl in Hf; inversion Hf; subst; clear Hf.
      + split; [|split; [|auto]].
        * split; auto. split; auto. simpl. intros x. unfold updf. destruct (Nat.eqb_spec x g); [left; lia|apply HJ2].
        * intros x. unfold ev_view, updf. simpl. destruct (Nat.eqb_spec x g); auto.
      + split; [repeat split; auto|]. split; [split; auto|]. auto.
      + split; [|split; [split; auto|auto]].
        split; auto. split; auto. simpl. intros x. unfold updf. destruct (Nat.eqb_spec x t); auto.
    - destruct e; inversion Hf; subst; clear Hf; (split; [repeat split; auto|]); split; auto.
    - unfold ep_pc in Hpc. destruct (e_glob s) as [|[|[|v]]] eqn:Hg; simpl in Hf; try lia. inversion Hf; subst; clear Hf.
      split; [|split; [|split; auto]].
      + split; [simpl; lia|]. split; simpl; intros x; unfold updf.
        * destruct (Nat.eqb_spec x g); [lia|]. specialize (HJ2 x). lia.
        * destruct (Nat.eqb_spec x t); [lia|]. specialize (HJ3 x). lia.
      + intros x. unfold ev_view, updf. simpl. destruct (Nat.eqb_spec x g); auto.
    - inversion Hf; subst; clear Hf. split; [|split; [|split; auto]].
      + split; auto. split; auto. simpl. intros x. unfold updf. destruct (Nat.eqb_spec x g); [left; lia|apply HJ2].
      + intros x. unfold ev_view, updf. simpl. destruct (Nat.eqb_spec x g); auto.
  Qed.
End Ep.

(** ** Running out of epochs *)
Section Wrap.
  Variable W : nat.
  Notation P := (epprog W).

  Lemma ep_many k : k + 3 <= W ->
    exists c, reachable P 1 (ep_init W) tt c /\ thr c = [Idle okp oop unit tt] /\
      e_glob (sh c) = W - 1 - k /\ (forall x, k <= x -> e_flag (sh c) x = 0) /\ 2 <= e_thr (sh c) 0 /\
      (forall x, k <= x -> ends x (e_log (sh c)) = 0).
  Proof.
    induction k as [|k IH]; intros Hk.
    - exists (init okp oop ores unit 1 (ep_init W) tt). repeat split; simpl; try lia. exists []. auto.
    - destruct IH as (c & Hr & Ht & Hg & Hf & He & Hn); [lia|].
      assert (exists c', run P c [LCall bool 0 (Once k); LRun oop 0 [] false; LRun oop 0 [] false;
                LRun oop 0 [] false; LRun oop 0 [] false] = Some c' /\ thr c' = [Idle okp oop unit tt] /\
                e_glob (sh c') = W - 1 - S k /\ (forall x, S k <= x -> e_flag (sh c') x = 0) /\ 2 <= e_thr (sh c') 0 /\
                (forall x, S k <= x -> ends x (e_log (sh c')) = 0))
        as (c' & Hrun & H).
      { destruct c as [s th h]. cbn [thr sh] in *. subst th.
        cbn -[efrag]. unfold efrag at 1. rewrite (Hf k (le_n k)).
        replace (0 <? e_thr s 0) with true by (symmetry; apply Nat.ltb_lt; lia).
        cbn -[efrag]. unfold efrag at 1. rewrite (Hf k (le_n k)). cbn -[efrag edec Nat.leb].
        unfold efrag at 1. cbn -[efrag edec Nat.leb]. unfold efrag at 1. cbn -[edec Nat.leb].
        destruct (e_glob s) as [|[|[|v]]] eqn:Eg; try lia. cbn.
        eexists. split; [reflexivity|]. cbn. split; [reflexivity|]. split; [lia|]. split; [|split; [unfold updf; simpl; lia|]].
        - intros x Hx. unfold updf. destruct (Nat.eqb_spec x k); [lia|]. apply Hf. lia.
        - intros x Hx. unfold ends. simpl. destruct (Nat.eqb_spec k x); [lia|]. apply Hn. lia. }
      exists c'. split; [|exact H]. eapply reachable_run; eauto.
  Qed.

  Lemma ep_wraps : 3 <= W -> exists c g, reachable P 1 (ep_init W) tt c /\ quiescent c /\ stuck c 0 g /\
    ends g (e_log (sh c)) = 1.
  Proof.
    intros HW. destruct (ep_many (W - 3)) as (c & Hr & Ht & Hg & Hf & He & Hn); [lia|].
    assert (exists c', run P c [LCall bool 0 (Once (W - 3)); LRun oop 0 [] false; LRun oop 0 [] false;
              LRun oop 0 [] false; LRun oop 0 [] false; LRun oop 0 [] false] = Some c' /\
              thr c' = [Asleep tt (Once (W - 3)) tt (KEnter (W - 3))] /\
              e_log (sh c') = CbEnd 0 (W - 3) :: CbStart 0 (W - 3) :: e_log (sh c)) as (c' & Hrun & H1 & H2).
    { destruct c as [s th h]. cbn [thr sh] in *. subst th. set (k := W - 3) in *.
      cbn -[efrag]. unfold efrag at 1. rewrite (Hf k (le_n k)).
      replace (0 <? e_thr s 0) with true by (symmetry; apply Nat.ltb_lt; lia).
      cbn -[efrag]. unfold efrag at 1. rewrite (Hf k (le_n k)). cbn -[efrag edec Nat.leb].
      unfold efrag at 1. cbn -[efrag edec Nat.leb]. unfold efrag at 1. cbn -[efrag edec Nat.leb].
      destruct (e_glob s) as [|[|[|v]]] eqn:Eg; try lia. cbn. unfold updf. rewrite !Nat.eqb_refl. cbn.
      eexists. split; [reflexivity|]. cbn. auto. }
    exists c', (W - 3). split; [eapply reachable_run; eauto|]. split; [|split].
    - unfold quiescent. rewrite H1. reflexivity.
    - exists tt, tt, (KEnter (W - 3)). rewrite H1. reflexivity.
    - rewrite H2. unfold ends. simpl. rewrite Nat.eqb_refl. simpl. f_equal.
      apply Hn. lia.
  Qed.
End Wrap.
