(** * Proofs about serial_executor_cont *)
From Verif Require Import MonitorLemmas MonWake MonTrace SX_Model SX_Spec SY_Model.
Set Implicit Arguments.
Notation syconf := (cfg sy yk yop yres ycv unit).
Notation tst := (tstat yk yop ycv unit).
Fixpoint yaccepted (h : list (event yop yres)) : nat := match h with [] => 0 | EDone _ YSubmit YOk :: h' => S (yaccepted h') | _ :: h' => yaccepted h' end.

Inductive phase := Q0 | QP | QR | QF | QL.
Definition wk (x : tst) : nat := match x with Ready _ _ _ k | Asleep _ _ _ k => match k with YStart _ => 0 | _ => 1 end | _ => 0 end.
Definition wkk (k : yk) : nat := match k with YStart _ => 0 | _ => 1 end.
Definition wo (o : outcome yk ycv yres) : nat := match o with OYield _ _ k | OSleep _ _ k => wkk k | _ => 0 end.
Definition nph (ph : phase) : nat := match ph with Q0 | QP => 0 | _ => 1 end.
Definition tph (ph : phase) (m : nat) (op : yop) (k : yk) : Prop :=
  match k with YStart op' => op' = op | YRun i => op = YExec /\ i = m /\ ph = QR | YFin i => op = YExec /\ i = m /\ ph = QF | YLaunch i => op = YExec /\ i = m /\ ph = QL end.
Definition stat (s : sy) (ph : phase) (m : nat) (x : tst) : Prop :=
  match x with Idle _ _ _ _ => True | Ready _ _ op k => tph ph m op k | Asleep _ op _ k => op = YExec /\ k = YStart YExec /\ ypend s = [] | _ => False end.
Definition sph (ph : phase) (m : nat) (s : sy) : Prop :=
  (forall i, dn s i = (i <? m)) /\ (forall i, m <= i -> at_ s i = (S i <? ynsub s)) /\
  (match ph with Q0 => m = ynsub s | _ => m < ynsub s end) /\ ypend s = (match ph with QP => [m] | _ => [] end) /\
  ylog s = (match ph with QR => Beg m :: serial m | QF => serial (S m) | _ => serial m end).
Record Ord (c : syconf) : Prop := {
  o_ph : exists ph m, sph ph m (sh c) /\ Forall (stat (sh c) ph m) (thr c) /\ sumw wk (thr c) = nph ph;
  o_acc : ynsub (sh c) = yaccepted (hist c) }.

Lemma wk_wake (x : tst) : wk (wake x) = wk x.
Proof. destruct x; reflexivity. Qed.
Local Arguments Nat.ltb : simpl never.
Local Arguments Nat.eqb : simpl never.
Lemma ltb_S a b : (S a <? S b) = (a <? b).
Proof. reflexivity. Qed.

Lemma frag_ord t e k s s' ns o ph m op : yfrag t e k s = (s', ns, o) -> sph ph m s -> tph ph m op k ->
  exists ph' m', sph ph' m' s' /\ match o with OYield _ _ k' => tph ph' m' op k' | OSleep _ _ k' => op = YExec /\ k' = YStart YExec /\ ypend s' = [] | ORet _ _ _ => True | _ => False end /\
    (forall op0 k0, tph ph m op0 k0 -> (wkk k = 1 -> wkk k0 = 0) -> tph ph' m' op0 k0) /\ wo o + nph ph = wkk k + nph ph' /\
    ynsub s' = match o with ORet _ _ YOk => match op with YSubmit => S (ynsub s) | _ => ynsub s end | _ => ynsub s end /\
    (ypend s = [] -> ypend s' <> [] -> In (NAll VP) ns).
Proof.
  intros Hf Hs Ht. pose proof Hs as (D & A & M & E & L). destruct k as [op'|i|i|i]; cbn [tph] in Ht.
  - subst op'. destruct op; cbn [yfrag] in Hf.
    + destruct (yclos s) eqn:Ec; [inversion Hf; subst; exists ph, m; split; [exact Hs|]; cbn; auto 10|].
      assert (X : forall s1, s1 = launch (ynsub s) (MkY false (S (ynsub s)) (dn s) (at_ s) (ypend s) (ylog s)) -> ph = Q0 -> sph QP m s1).
      { intros s1 -> ->. split; [exact D|]. split; [|cbn; split; [lia|split; [rewrite E, M; auto|exact L]]].
        intros i Hi. cbn. rewrite A by auto. destruct (Nat.ltb_spec (S i) (ynsub s)), (Nat.ltb_spec (S i) (S (ynsub s))); auto; lia. }
      assert (Y : ph = Q0 -> forall op0 k0, tph ph m op0 k0 -> tph QP m op0 k0).
      { intros -> op0 [?|?|?|?]; cbn; auto; intros (_ & _ & ?); discriminate. }
      destruct (ynsub s) as [|p] eqn:En.
      * assert (ph = Q0) by (destruct ph; auto; lia). inversion Hf; subst. exists QP, m. split; [apply X; auto|]. cbn. split; auto; try (split; [intros; apply Y; auto|auto]).
      * destruct (dn s p) eqn:Ed.
        -- rewrite D in Ed. apply Nat.ltb_lt in Ed. assert (ph = Q0) by (destruct ph; auto; lia). inversion Hf; subst. exists QP, m. split; [apply X; auto|]. cbn. split; auto; try (split; [intros; apply Y; auto|auto]).
        -- rewrite D in Ed. apply Nat.ltb_ge in Ed. inversion Hf; subst. exists ph, m. split; [|cbn; auto 10].
           split; [exact D|]. cbn [dn at_ ynsub ypend ylog]. split; [|split; [destruct ph; lia|auto]].
           intros i Hi. unfold yupd. destruct (Nat.eqb_spec i p) as [->|Hn].
           ++ symmetry. apply Nat.ltb_lt. lia.
           ++ rewrite A by auto. destruct (Nat.ltb_spec (S i) (S p)), (Nat.ltb_spec (S i) (S (S p))); auto; lia.
    + inversion Hf; subst. exists ph, m. split; [exact Hs|]. cbn. auto 10.
    + destruct (take_nth e (ypend s)) as [[i l]|] eqn:Et.
      * assert (ph = QP) as -> by (destruct ph; auto; rewrite E in Et; destruct e; discriminate). rewrite E in Et.
        assert (i = m /\ l = []) as [-> ->] by (destruct e; cbn in Et; [|destruct e]; injection Et as <- <-; auto).
        inversion Hf; subst. exists QR, m. split; [split; [exact D|split; [exact A|cbn; rewrite L; auto]]|]. cbn. split; auto. split; auto.
        intros op0 [?|?|?|?]; cbn; auto; intros (_ & _ & ?); discriminate.
      * inversion Hf; subst. exists ph, m. cbn. split; auto. split; [|auto]. split; auto. split; auto. destruct (ypend s') as [|? ?]; auto. destruct e; cbn in Et; [discriminate|]. destruct (take_nth e l) as [[? ?]|]; discriminate.
    + inversion Hf; subst. exists ph, m. split; [exact Hs|]. cbn. auto 10.
  - destruct Ht as (-> & -> & ->). inversion Hf; subst. exists QF, m. split; [split; [exact D|split; [exact A|cbn; rewrite L; auto]]|]. cbn. split; auto. split; auto.
    intros op0 [?|?|?|?] H1 H2; cbn in *; auto; specialize (H2 eq_refl); discriminate.
  - destruct Ht as (-> & -> & ->). cbn [yfrag] in Hf. inversion Hf; subst.
    assert (Dn : forall i, yupd (dn s) m i = (i <? S m)).
    { intros i. unfold yupd. destruct (Nat.eqb_spec i m) as [->|Hn]; [symmetry; apply Nat.ltb_lt; lia|]. rewrite D. destruct (Nat.ltb_spec i m), (Nat.ltb_spec i (S m)); auto; lia. }
    rewrite (A m) by auto. cbn in M. destruct (Nat.ltb_spec (S m) (ynsub s)) as [Hlt|Hge].
    + exists QL, (S m). split; [split; [exact Dn|split; [intros; apply A; lia|cbn; auto]]|]. cbn. split; auto. split; auto.
      intros op0 [?|?|?|?] H1 H2; cbn in *; auto; specialize (H2 eq_refl); discriminate.
    + exists Q0, (S m). split; [split; [exact Dn|split; [intros; apply A; lia|cbn; split; [lia|auto]]]|]. cbn. split; auto. split; auto.
      intros op0 [?|?|?|?] H1 H2; cbn in *; auto; specialize (H2 eq_refl); discriminate.
  - destruct Ht as (-> & -> & ->). cbn [yfrag] in Hf. inversion Hf; subst. exists QP, m. split; [split; [exact D|split; [exact A|cbn; rewrite E; auto]]|]. cbn. split; auto. split; auto.
    intros op0 [?|?|?|?] H1 H2; cbn in *; auto; specialize (H2 eq_refl); discriminate.
Qed.

Lemma upd_thr (l : list tst) t y u x : t < length l -> nth_error (upd l t y) u = Some x -> u = t /\ x = y \/ u <> t /\ nth_error l u = Some x.
Proof.
  intros Hlt H. destruct (Nat.eq_dec u t) as [->|Hn]; [left|right; split; auto].
  - rewrite nth_error_upd_same in H by auto. split; congruence.
  - now rewrite nth_error_upd_other in H by auto.
Qed.
Lemma woken_back (l l' : list tst) u x : woken_rel l l' -> nth_error l' u = Some x -> exists x0, nth_error l u = Some x0 /\ (x = x0 \/ is_asleep x0 = true /\ x = wake x0).
Proof.
  intros [Hlen Hw] Hx. destruct (nth_error l u) as [x0|] eqn:E.
  - exists x0. split; auto. destruct (Hw _ _ E) as [E'|[Ha E']]; rewrite E' in Hx; injection Hx as <-; auto.
  - apply nth_error_None in E. assert (u < length l') by (apply nth_error_Some; congruence). lia.
Qed.
Lemma sumw_one (w : tst -> nat) l t x : nth_error l t = Some x -> sumw w l <= w x -> forall u y, u <> t -> nth_error l u = Some y -> w y = 0.
Proof.
  revert t. induction l as [|z l IH]; intros [|t] Ht Hs [|u] y Hn Hu; cbn in *; try discriminate; try congruence.
  - injection Ht as <-. pose proof (sumw_ge w Hu). lia.
  - injection Hu as <-. pose proof (sumw_ge w Ht). lia.
  - apply (IH t Ht) with (u := u); auto; lia.
Qed.
Lemma yaccepted_done t op r h : yaccepted (EDone t op r :: h) = match r with YOk => match op with YSubmit => S (yaccepted h) | _ => yaccepted h end | _ => yaccepted h end.
Proof. destruct op, r; reflexivity. Qed.

Lemma Ord_step c c' : Ord c -> stepcase syprog c c' -> Ord c'.
Proof.
  intros [(ph & m & H1 & H2 & H3) HA] Hs. destruct Hs as
   [t l op Ht Hp ->|t ps e l op k s' ns o thr' Ht Hfr Hd ->|t p l n ns thr' Ht Hd ->
   |t l op cv k Ht ->|t l op cv k k' Ht Hk ->|t l op cv k k' Ht Hk ->|t l op k k' Ht Hk ->]; try discriminate Hk.
  - constructor; cbn [sh thr hist]; auto. exists ph, m. split; auto. split; [apply Forall_upd; auto; reflexivity|].
    pose proof (sumw_upd wk (Ready ycv l op (YStart op)) Ht) as H. cbn in H |- *. lia.
  - cbn [frag syprog] in Hfr. assert (Htp : tph ph m op k) by (exact (Forall_nth_error H2 Ht)).
    pose proof (deliver_all_woken Hd) as Hw. assert (Ht' : nth_error thr' t = Some (Ready ycv l op k)) by (eapply woken_not_asleep; eauto).
    destruct (frag_ord _ _ _ _ Hfr H1 Htp) as (ph' & m' & G1 & G2 & G3 & G4 & G5 & G6).
    assert (Wy : wk (fst (after syprog t l op o (hist c))) = wo o) by (destruct o; try contradiction; auto).
    assert (S0 : sumw wk thr' = sumw wk (thr c)) by (apply woken_sumw_eq; auto; intros; apply wk_wake).
    pose proof (sumw_upd wk (fst (after syprog t l op o (hist c))) Ht') as S1.
    assert (Wk : wk (Ready ycv l op k) = wkk k) by reflexivity. rewrite Wy, S0, Wk in S1.
    constructor; cbn [sh thr hist].
    + exists ph', m'. split; auto. split; [|lia]. apply Forall_forall. intros z Hz. apply In_nth_error in Hz as [u Hz]. apply upd_thr in Hz; [|apply nth_error_Some; congruence].
      destruct Hz as [[-> ->]|[Hn Hz]]; [destruct o; try contradiction; cbn; auto|].
      destruct (woken_back _ Hw Hz) as (z0 & Hz0 & Hzz). pose proof (Forall_nth_error H2 Hz0) as Jz.
      assert (W0 : wkk k = 1 -> wk z0 = 0) by (intros W; eapply sumw_one with (1 := Ht) (4 := Hz0); auto; rewrite Wk; destruct ph; cbn in H3; lia).
      destruct z0 as [u0|u0 op0 k0|u0 op0 cv0 k0|u0 ns0|]; destruct Hzz as [->|[Ha0 ->]]; try discriminate; cbn in Jz |- *; auto.
      * destruct Jz as (-> & -> & Jp). split; auto. split; auto. destruct (ypend s') as [|? ?] eqn:Ep; auto. exfalso.
        assert (Hi : In (NAll VP) ns) by (apply G6; auto; discriminate).
        pose proof (deliver_all_NAll syprog VP ns ps _ Hd Hi) as Hx. rewrite Forall_forall in Hx. specialize (Hx _ (nth_error_In _ _ Hz)). unfold not_on in Hx. destruct cv0; discriminate.
      * destruct Jz as (-> & -> & Jp). reflexivity.
    + destruct o as [r|r ns0|cv0 k0|k0|]; try contradiction; cbn [after snd]; try (rewrite G5; auto; fail). rewrite yaccepted_done, G5. destruct r, op; auto.
  - destruct (Forall_nth_error H2 Ht).
  - constructor; cbn [sh thr hist]; auto. exists ph, m. destruct (Forall_nth_error H2 Ht) as (-> & -> & Jp). split; auto. split; [apply Forall_upd; auto; reflexivity|].
    pose proof (sumw_upd wk (Ready ycv l YExec (YStart YExec)) Ht) as H. cbn in H |- *. lia.
Qed.
Lemma Ord_reachable n c : reachable syprog n sy0 tt c -> Ord c.
Proof.
  apply (reachable_inv syprog Ord); [|intros c0 c1; apply Ord_step]. constructor; cbn; auto. exists Q0, 0. split; [|split].
  - unfold sph. cbn. auto.
  - apply Forall_forall. intros x Hx. apply repeat_spec in Hx. subst. exact I.
  - now rewrite sumw_repeat.
Qed.

(** no submission is accepted after close *)
Lemma closed_seen n c : reachable syprog n sy0 tt c -> forall u op', In (EDone u op' YOk) (hist c) -> op' = YClose \/ op' = YDestroy -> yclos (sh c) = true.
Proof.
  intros Hr. enough (H : Ord c /\ forall u op', In (EDone u op' YOk) (hist c) -> op' = YClose \/ op' = YDestroy -> yclos (sh c) = true) by apply H. revert Hr.
  apply (reachable_inv syprog (fun c => Ord c /\ forall u op', In (EDone u op' YOk) (hist c) -> op' = YClose \/ op' = YDestroy -> yclos (sh c) = true)).
  - split; [apply (@Ord_reachable n); exists []; reflexivity|]. intros u op' [].
  - intros c0 c1 [HI H] Hs. split; [eapply Ord_step; eauto|]. destruct HI as [(ph & m & H1 & H2 & H3) _]. destruct Hs as
     [t l op Ht Hp ->|t ps e l op k s' ns o thr' Ht Hfr Hd ->|t p l n0 ns thr' Ht Hd ->
     |t l op cv k Ht ->|t l op cv k k' Ht Hk ->|t l op cv k k' Ht Hk ->|t l op k k' Ht Hk ->]; try discriminate Hk; cbn [sh hist]; auto.
    + intros u op' [Hin|Hin]; [discriminate|eauto].
    + cbn [frag syprog] in Hfr. assert (Htp : tph ph m op k) by (exact (Forall_nth_error H2 Ht)). intros u op' Hin Hop.
      assert (M : yclos (sh c0) = true -> yclos s' = true).
      { intros Hc. destruct k as [op0|i|i|i]; cbn [yfrag] in Hfr; [destruct op0; rewrite ?Hc in Hfr|..]; try (destruct (take_nth e (ypend (sh c0))) as [[? ?]|]); inversion Hfr; subst; auto. }
      assert (N : forall r, o = ORet yk ycv r -> op = YClose \/ op = YDestroy -> yclos s' = true).
      { intros r -> Ho. destruct k as [op0|i|i|i]; cbn [tph] in Htp; [|destruct Htp as [-> _]; destruct Ho; discriminate..]. subst op0. destruct Ho; subst op; inversion Hfr; reflexivity. }
      destruct (frag_ord _ _ _ _ Hfr H1 Htp) as (ph' & m' & _ & G2 & _).
      destruct o as [r|r ns0|cv0 k0|k0|]; try contradiction; cbn in Hin; try (apply M; eauto; fail).
      destruct Hin as [Hin|Hin]; [|apply M; eauto]. injection Hin as _ <- _. eauto.
Qed.
Lemma refused n c t r h1 h0 : reachable syprog n sy0 tt c -> hist c = h1 ++ EDone t YSubmit r :: h0 ->
  forall u op', In (EDone u op' YOk) h0 -> op' = YClose \/ op' = YDestroy -> r = YClosed.
Proof.
  intros Hr E u op' Hin Hop. destruct (event_step syprog h1 (EDone t YSubmit r) h0 Hr E) as (c0 & lb & c1 & Hr0 & Hlb & E0 & E1 & _). pose proof (step_inv _ _ _ Hlb) as Hst.
  destruct (Ord_reachable Hr0) as [(ph & m & H1 & H2 & H3) _]. pose proof (closed_seen Hr0) as Hcl. rewrite E0 in Hcl. specialize (Hcl _ _ Hin Hop).
  destruct Hst as
   [t0 l op0 Ht Hp ->|t0 ps e l op0 k s' ns o thr' Ht Hfr Hd ->|t0 p l n0 ns thr' Ht Hd ->
   |t0 l op0 cv k Ht ->|t0 l op0 cv k k' Ht Hk ->|t0 l op0 cv k k' Ht Hk ->|t0 l op0 k k' Ht Hk ->]; cbn in E1; try discriminate Hk.
  all: try (rewrite E0 in E1; try discriminate; exfalso; apply (f_equal (@length _)) in E1; cbn in E1; lia).
  assert (Htp : tph ph m op0 k) by (exact (Forall_nth_error H2 Ht)). cbn [frag syprog] in Hfr.
  destruct (frag_ord _ _ _ _ Hfr H1 Htp) as (ph' & m' & _ & G2 & _).
  rewrite E0 in E1. destruct o as [r0|r0 ns0|cv0 k0|k0|]; cbn in E1; try contradiction; try (exfalso; apply (f_equal (@length _)) in E1; cbn in E1; lia).
  injection E1 as -> -> ->. destruct k as [op1|i|i|i]; cbn [tph] in Htp; try (destruct Htp; discriminate).
  subst op1. cbn [yfrag] in Hfr. rewrite Hcl in Hfr. inversion Hfr. reflexivity.
Qed.
