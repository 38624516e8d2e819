(** * Interruption, sleeping and joining on Windows: waits end *)
From Verif Require Import WI_Spec WI_Proofs.
Set Implicit Arguments.

Definition sane (f : bool) (h : list event) : Prop := f = false \/ Forall soon h.
Definition good_due (n d : Z) (due : option Z) : Prop := exists u, due = Some u /\ d <= u /\ (u <= n \/ u < d + 1000000).
Definition timed (f : bool) (n : Z) (h : list event) (x : thr) : Prop :=
  match t_pc x with
  | PWait _ _ (Some d) _ tm due | PAgain _ _ (Some d) _ tm due => (f = false -> tm = true) /\ (sane f h -> good_due n d due)
  | _ => True
  end.

Lemma timed_mono f n n' ev h x : n <= n' -> timed f n h x -> timed f n' (ev ++ h) x.
Proof.
  intros Hn. unfold timed. destruct (t_pc x) as [|k|k c|k c|k w c|k w c ip tm due|k w c ip tm due|k b|k| |]; auto; destruct c as [d|]; auto;
    (intros [H0 H]; split; [exact H0|]; intros Hs; destruct H as (u & E & H1 & H2); [destruct Hs as [Hs|Hs]; [now left|right; now apply Forall_app in Hs]|];
     exists u; split; [exact E|]; split; [exact H1|]; destruct H2; [left|right]; lia).
Qed.

Lemma doing_wait t k h : doing t h = Waits k -> exists n r, In (EWait t k n r) h.
Proof.
  induction h as [|e h IH]; cbn; [discriminate|]. intros H.
  assert (G : doing t h = Waits k -> exists n r, e = EWait t k n r \/ In (EWait t k n r) h) by (intros G; destruct (IH G) as (n & r & Hi); eauto).
  destruct e; try (apply G; exact H); destruct (_ =? t)%nat eqn:E; try discriminate; try (apply G; exact H).
  apply Nat.eqb_eq in E. subst. injection H as ->. eauto.
Qed.

(** the time left of a call whose time was soon *)
Lemma left_bound boost s t k d : inv boost s -> doing t (hist s) = Waits k -> okc (now s) k (Some d) -> Forall soon (hist s) -> d - now s <= 4294967294 * 1000000.
Proof.
  intros HI Hd Hc Hs. unfold okc in Hc. destruct (k_dl k) as [|d'|d'] eqn:Ed; [discriminate| |].
  - injection Hc as ->. destruct (doing_wait _ _ Hd) as (n & r & Hi). rewrite Forall_forall in Hs. specialize (Hs _ Hi). cbn in Hs. rewrite Ed in Hs.
    pose proof (i_tm HI _ _ _ _ Hi). lia.
  - destruct Hc as (z & E & Hz). injection E as <-. unfold POLL in Hz. lia.
Qed.

Lemma due_ms_good s d ms : ms = getMs (d - now s) -> d - now s <= 4294967294 * 1000000 -> now s <= d -> good_due (now s) d (due_ms s ms).
Proof.
  intros Em Hb Hn. assert (H0 : 0 <= ms).
  { destruct (Z.le_gt_cases 0 ms); [assumption|]. pose proof (getMs_neg (d - now s)). lia. }
  assert (H1 : getMs (d - now s) * 1000000 < d - now s + 1000000) by (apply getMs_lt; lia). rewrite <- Em in H1. pose proof (getMs_ge (d - now s)) as H2. rewrite <- Em in H2.
  unfold due_ms, dword, INFINITE. rewrite Z.mod_small by lia. replace (ms =? 4294967295) with false by (symmetry; apply Z.eqb_neq; lia).
  eexists. split; [reflexivity|]. lia.
Qed.
Lemma due_zero_good s d : d <= now s -> good_due (now s) d (due_ms s 0).
Proof. intros H. unfold due_ms. cbn. eexists. split; [reflexivity|]. lia. Qed.
Lemma due_timer_good s d : good_due (now s) d (due_timer s (getMs (d - now s))).
Proof.
  unfold due_timer. eexists. split; [reflexivity|]. pose proof (getMs_neg (d - now s)). pose proof (getMs_ge (d - now s)). pose proof (@getMs_lt (d - now s)).
  destruct (Z.ltb_spec 0 (getMs (d - now s))); lia.
Qed.

Definition inv2 (f : bool) (s : sys) : Prop := forall t x, nth_error (thrs s) t = Some x -> timed f (now s) (hist s) x.

Lemma inv2_upd f s t g ev : inv2 f s -> (forall x, nth_error (thrs s) t = Some x -> timed f (now s) (ev ++ hist s) (g x)) -> inv2 f (upd s t g ev).
Proof.
  intros HI Hg u y Hy. cbn in Hy. rewrite nth_modify in Hy. destruct (u =? t)%nat eqn:E.
  - apply Nat.eqb_eq in E. subst. destruct (nth_error (thrs s) t) as [x|] eqn:Ex; [|discriminate]. cbn in Hy. injection Hy as <-. cbn. auto.
  - cbn. apply timed_mono with (n := now s); [lia|]. eauto.
Qed.
(** when g does not change the state of the call *)
Lemma inv2_keep f s t g ev : inv2 f s -> (forall x, t_pc (g x) = t_pc x) -> inv2 f (upd s t g ev).
Proof.
  intros HI Hg. apply inv2_upd; [exact HI|]. intros x Hx. pose proof (HI _ _ Hx) as H. apply timed_mono with (n' := now s) (ev := ev) in H; [|lia].
  unfold timed in *. rewrite Hg. exact H.
Qed.
Lemma inv2_goto f s t p ev : inv2 f s -> timed f (now s) (ev ++ hist s) (Thr true true [] true true p) -> inv2 f (upd s t (set_pc p) ev).
Proof. intros HI H. apply inv2_upd; [exact HI|]. intros x _. exact H. Qed.

Lemma inv2_step f boost s l s' : inv boost s -> inv2 f s -> allowed f l -> exec s l = Some s' -> inv2 f s'.
Proof.
  intros HI H2 Ha He.
  assert (G : forall t p ev, timed f (now s) (ev ++ hist s) (Thr true true [] true true p) -> Some (upd s t (set_pc p) ev) = Some s' -> inv2 f s')
    by (intros t p ev H E; injection E as <-; apply inv2_goto; auto).
  destruct l as [t o|t|t ok|t|dm dr]; cbn in He.
  - destruct (nth_error (thrs s) t) as [x|] eqn:Ex; [|discriminate]. unfold call in He. destruct (t_pc x) eqn:Epc; try discriminate.
    destruct o as [k|j|j| | | | |j|].
    + cbv zeta in He. destruct (k_obj k) as [j|]; [destruct ((j =? t)%nat && joinable s j)|destruct (k_dl k); try discriminate]; (eapply G; [|exact He]; exact I).
    + destruct (joinable s j); injection He as <-; [|exact H2]. apply inv2_keep; auto.
    + destruct (nth_error (thrs s) j) as [y|]; [|discriminate]. destruct (jn y); injection He as <-; [|exact H2]. apply inv2_keep; auto.
    + destruct (enabled x && intr x).
      * eapply G; [|exact He]. exact I.
      * injection He as <-. apply inv2_keep; auto.
    + injection He as <-. apply inv2_keep; auto.
    + injection He as <-. apply inv2_keep; auto.
    + destruct (dis x); [discriminate|]. injection He as <-. apply inv2_keep; auto.
    + injection He as <-. apply inv2_keep; auto.
    + eapply G; [|exact He]. exact I.
  - destruct (nth_error (thrs s) t) as [x|] eqn:Ex; [|discriminate]. unfold run, goto, begin, ret, joined in He.
    pose proof (o_pc (i_thr HI _ Ex)) as H5. unfold okpc in H5. pose proof (H2 _ _ Ex) as H6. unfold timed in H6.
    destruct (t_pc x) as [|k|k c|k c|k w c|k w c ip tm due|k w c ip tm due|k b|k| |] eqn:Epc; try discriminate.
    + destruct (k_dl k); destruct (k_obj k); try destruct (0 <? d - real s); (eapply G; [|exact He]; exact I).
    + destruct (k_obj k) as [j|]; [|discriminate]. destruct (joinable s j); (eapply G; [|exact He]; exact I).
    + destruct (k_obj k) as [j|]; [|discriminate]. (eapply G; [|exact He]; exact I).
    + destruct (signalled s w); [eapply G; [|exact He]; exact I|]. destruct (ip && intr x); [eapply G; [|exact He]; exact I|].
      destruct (over s due); [|discriminate]. destruct tm; [eapply G; [|exact He]; exact I|].
      eapply G; [|exact He]. destruct c as [d|]; exact H6.
    + destruct c as [d|]; [|eapply G; [|exact He]; exact I]. destruct tm; [eapply G; [|exact He]; exact H6|]. cbv zeta in He.
      destruct ((getMs (d - now s) =? INFINITE) || (0 <? getMs (d - now s))) eqn:Em; [|eapply G; [|exact He]; exact I].
      eapply G; [|exact He]. cbn. split; [apply H6|]. intros Hs. destruct Hs as [Hs|Hs]; [exfalso; destruct H6 as [H6 _]; specialize (H6 Hs); discriminate|].
      apply due_ms_good; [reflexivity| |].
      * destruct H5 as (Hd & _ & Hc & _). eapply left_bound; eauto.
      * destruct (Z.le_gt_cases (now s) d); [assumption|]. assert (getMs (d - now s) < 0) by (apply getMs_neg; lia).
        unfold INFINITE in Em. apply orb_true_iff in Em. rewrite Z.eqb_eq, Z.ltb_lt in Em. lia.
    + destruct (k_obj k) as [j|]; destruct (k_dl k) as [|d|d]; try (destruct b); try (destruct (d - real s <=? 0));
        try (eapply G; [|exact He]; exact I);
        (injection He as <-; apply inv2_goto; [apply inv2_keep; auto|exact I]).
    + injection He as <-. apply inv2_upd; [exact H2|]. intros y _. exact I.
    + injection He as <-. apply inv2_upd; [exact H2|]. intros y _. exact I.
  - destruct (nth_error (thrs s) t) as [x|] eqn:Ex; [|discriminate]. destruct (t_pc x) as [| | | |k w c| | | | | |] eqn:Epc; try discriminate. unfold enter, goto in He.
    pose proof (o_pc (i_thr HI _ Ex)) as H5. unfold okpc in H5. rewrite Epc in H5. destruct H5 as (Hd & _ & Hc & _).
    destruct c as [d|]; [|eapply G; [|exact He]; exact I]. cbv zeta in He. destruct ok.
    + eapply G; [|exact He]. cbn. split; [auto|]. intros _. apply due_timer_good.
    + cbn in Ha. assert (f = true) as -> by (destruct Ha; [assumption|discriminate]). eapply G; [|exact He]. cbn. split; [discriminate|].
      intros [Hs|Hs]; [discriminate|]. pose proof (@left_bound _ _ _ _ _ HI Hd Hc Hs). destruct (getMs (d - now s) <? 0) eqn:El.
      * apply Z.ltb_lt in El. apply (proj1 (getMs_neg _)) in El. apply due_zero_good. lia.
      * apply Z.ltb_ge in El. apply due_ms_good; auto. destruct (Z.le_gt_cases (now s) d); [assumption|]. assert (getMs (d - now s) < 0) by (apply getMs_neg; lia). lia.
  - destruct (nth_error (thrs s) t) as [x|] eqn:Ex; [|discriminate]. destruct (t_pc x) as [| | | | |k w c ip tm due| | | | |] eqn:Epc; try discriminate. unfold goto in He.
    eapply G; [|exact He]. pose proof (H2 _ _ Ex) as H6. unfold timed in H6. rewrite Epc in H6. destruct c as [d|]; exact H6.
  - destruct (0 <=? dm) eqn:Ed; [|discriminate]. injection He as <-. apply Z.leb_le in Ed. intros t x Hx. cbn in *.
    change (hist s) with ([] ++ hist s). apply timed_mono with (n := now s); [lia|eauto].
Qed.

Lemma inv2_reach f boost n r s : reach f boost n r s -> inv2 f s.
Proof.
  induction 1 as [|s l s' Hr IH Ha He].
  - intros t x Hx. cbn in Hx. rewrite nth_error_map in Hx. destruct (nth_error boost t); [|discriminate]. injection Hx as <-. exact I.
  - eapply inv2_step; eauto. eapply inv_reach; eauto.
Qed.

(** ** Where a thread stops *)
Lemma stuck_cases boost s t x : inv boost s -> nth_error (thrs s) t = Some x -> stuck s t ->
  t_pc x = PIdle \/ t_pc x = PEnd \/
  exists k w c ip tm due, t_pc x = PWait k w c ip tm due /\ signalled s w = false /\ ip && intr x = false /\ over s due = false.
Proof.
  intros HI Hx (H1 & H2 & H3). cbn in H1, H2, H3. rewrite Hx in H1, H2, H3.
  pose proof (o_pc (i_thr HI _ Hx)) as H5. unfold okpc in H5. unfold run, goto, begin, ret, joined in H1.
  destruct (t_pc x) as [|k|k c|k c|k w c|k w c ip tm due|k w c ip tm due|k b|k| |] eqn:Epc; auto; try discriminate.
  - exfalso. destruct (k_dl k); destruct (k_obj k); try discriminate; destruct (0 <? d - real s); discriminate.
  - exfalso. destruct H5 as (_ & _ & _ & Ho). destruct (k_obj k); [|congruence]. destruct (joinable s n); discriminate.
  - exfalso. destruct H5 as (_ & _ & _ & j & Ho & _). rewrite Ho in H1. discriminate.
  - exfalso. unfold enter, goto in H2. destruct c; discriminate.
  - right. right. exists k, w, c, ip, tm, due. split; [reflexivity|].
    destruct (signalled s w); [discriminate|]. destruct (ip && intr x); [discriminate|]. destruct (over s due); [destruct tm; discriminate|]. auto.
  - exfalso. destruct c; [|discriminate]. destruct tm; [discriminate|]. cbv zeta in H1. destruct (_ || _); discriminate.
  - exfalso. destruct (k_obj k); destruct (k_dl k); try discriminate; destruct b; try discriminate; destruct (d - real s <=? 0); discriminate.
Qed.

(** ** A thread that runs alone comes to a stop *)
Definition hot (s : sys) (c : option Z) : bool := match c with Some z => z <=? now s | None => false end.
Definition more (s : sys) (k : kind) : bool := match k_dl k with Real d => real s <? d | _ => false end.
Definition rank (s : sys) (x : thr) : nat :=
  match t_pc x with
  | PIdle | PEnd => 0
  | PIntr _ | PPoint => 1
  | PDone k true => 1
  | PDone k false => if more s k then 8 else 2
  | PWait _ _ c _ _ _ => if hot s c then 10 else 2
  | PAgain _ _ c _ tm _ => if tm then 11 else if hot s c then 9 else 3
  | PEnter _ _ c => if hot s c then 12 else 4
  | PNative _ c => if hot s c then 13 else 5
  | PGet _ c => if hot s c then 14 else 6
  | PTop k =>
      match k_dl k with
      | Real d => if real s <? d then 7 else match k_obj k with None => 1 | Some _ => 15 end
      | _ => 15
      end
  end.

Lemma rank_le s x : (rank s x <= 15)%nat.
Proof.
  unfold rank. destruct (t_pc x); try lia; try (destruct (hot s c); lia); try (destruct tm; [lia|destruct (hot s c); lia]).
  - destruct (k_dl k); try lia. destruct (real s <? d); [lia|destruct (k_obj k); lia].
  - destruct b; [lia|destruct (more s k); lia].
Qed.

Lemma chunk_hot s d : real s < d -> hot s (chunk s d) = false.
Proof. intros H. unfold chunk, hot. apply Z.leb_gt. unfold POLL. lia. Qed.

(** One step of its own *)
Lemma rank_step f boost s t l s' : inv boost s -> inv2 f s -> sane f (hist s) -> own f t l -> exec s l = Some s' ->
  now s' = now s /\ real s' = real s /\ sane f (hist s') /\ allowed f l /\
  exists x x', nth_error (thrs s) t = Some x /\ nth_error (thrs s') t = Some x' /\ (rank s' x' < rank s x)%nat.
Proof.
  intros HI H2 Hs Ho He.
  assert (A : allowed f l) by (destruct l; cbn in *; tauto).
  assert (Hsane : forall ev, Forall soon ev -> sane f (ev ++ hist s)) by (intros ev Hev; destruct Hs as [Hs|Hs]; [now left|right; apply Forall_app; auto]).
  destruct l as [|u|u ok| |]; cbn in Ho; try contradiction.
  - subst u. cbn in He. destruct (nth_error (thrs s) t) as [x|] eqn:Ex; [|discriminate].
    assert (G : forall g ev, Some (upd s t g ev) = Some s' -> Forall soon ev -> (rank (Sys (now s) (real s) [] []) (g x) < rank s x)%nat ->
       now s' = now s /\ real s' = real s /\ sane f (hist s') /\ allowed f (LRun t) /\
       exists x0 x', Some x = Some x0 /\ nth_error (thrs s') t = Some x' /\ (rank s' x' < rank s x0)%nat).
    { intros g ev E Hev Hlt. injection E as <-. split; [reflexivity|]. split; [reflexivity|]. split; [cbn; auto|]. split; [exact A|].
      exists x, (g x). split; [reflexivity|]. split; [cbn; rewrite nth_modify, Nat.eqb_refl, Ex; reflexivity|]. exact Hlt. }
    pose proof (o_pc (i_thr HI _ Ex)) as H5. unfold okpc in H5. pose proof (H2 _ _ Ex) as H6. unfold timed in H6.
    unfold run, goto, begin, ret, joined in He. unfold rank in G at 2.
    destruct (t_pc x) as [|k|k c|k c|k w c|k w c ip tm due|k w c ip tm due|k b|k| |] eqn:Epc; try discriminate.
    + destruct H5 as [Hd Hw].
      destruct (k_dl k) as [|d|d] eqn:Ed.
      * destruct (k_obj k) eqn:Eo; [|exfalso; apply Hw; congruence]. eapply G; [exact He|constructor|]. cbn. lia.
      * destruct (k_obj k); (eapply G; [exact He|constructor|]); cbn; destruct (d <=? now s); lia.
      * destruct (k_obj k) eqn:Eo.
        -- eapply G; [exact He|constructor|]. unfold rank. cbn [set_pc t_pc]. destruct (real s <? d) eqn:El.
           ++ apply Z.ltb_lt in El. pose proof (chunk_hot s El) as Hc. unfold hot in *. cbn [now]. rewrite Hc. lia.
           ++ destruct (hot _ _); lia.
        -- destruct (real s <? d) eqn:El.
           ++ pose proof El as El'. apply Z.ltb_lt in El. replace (0 <? d - real s) with true in He by (symmetry; apply Z.ltb_lt; lia).
              eapply G; [exact He|constructor|]. unfold rank. cbn [set_pc t_pc]. pose proof (chunk_hot s El) as Hc. unfold hot in *. cbn [now]. rewrite Hc. lia.
           ++ pose proof El as El'. apply Z.ltb_ge in El. replace (0 <? d - real s) with false in He by (symmetry; apply Z.ltb_ge; lia).
              eapply G; [exact He|repeat constructor|]. cbn. lia.
    + destruct (k_obj k); [|discriminate]. destruct (joinable s n).
      * eapply G; [exact He|constructor|]. unfold rank, hot. cbn. destruct c; [destruct (z <=? now s)|]; lia.
      * eapply G; [exact He|repeat constructor|]. cbn. destruct (hot s c); lia.
    + destruct (k_obj k); [|discriminate]. eapply G; [exact He|constructor|]. unfold rank, hot. cbn. destruct c; [destruct (z <=? now s)|]; lia.
    + destruct (signalled s w); [eapply G; [exact He|constructor|]; cbn; destruct (hot s c); lia|].
      destruct (ip && intr x); [eapply G; [exact He|constructor|]; cbn; destruct (hot s c); lia|].
      destruct (over s due) eqn:Eov; [|discriminate].
      destruct H5 as (_ & _ & _ & _ & _ & Htm & Hn).
      assert (Hh : hot s c = true).
      { destruct c as [d|]; [|destruct (Hn eq_refl) as [_ ->]; discriminate]. destruct H6 as [_ H6]. destruct (H6 Hs) as (u & -> & Hu & _). cbn in Eov. apply Z.leb_le in Eov. cbn. apply Z.leb_le. lia. }
      rewrite Hh in G. destruct tm.
      * eapply G; [exact He|constructor|]. cbn. destruct (more _ _); lia.
      * eapply G; [exact He|constructor|]. cbn. destruct (hot _ _); lia.
    + destruct c as [d|].
      * destruct tm; [eapply G; [exact He|constructor|]; cbn; destruct (d <=? now s); lia|]. cbv zeta in He.
        destruct ((getMs (d - now s) =? INFINITE) || (0 <? getMs (d - now s))) eqn:Em.
        -- assert (Hh : hot s (Some d) = false).
           { cbn. apply Z.leb_gt. destruct (Z.le_gt_cases d (now s)); [exfalso|assumption].
             pose proof (getMs_neg (d - now s)). unfold INFINITE in Em. apply orb_true_iff in Em. rewrite Z.eqb_eq, Z.ltb_lt in Em.
             destruct (Z.eq_dec d (now s)); [subst d; rewrite Z.sub_diag in Em; cbn in Em; lia|]. lia. }
           rewrite Hh in G. eapply G; [exact He|constructor|]. unfold rank. cbn in *. rewrite Hh. lia.
        -- apply orb_false_iff in Em. destruct Em as [_ Em]. apply Z.ltb_ge in Em.
           assert (Hh : hot s (Some d) = true).
           { cbn. apply Z.leb_le. destruct (Z.le_gt_cases d (now s)); [assumption|exfalso]. pose proof (getMs_ge (d - now s)). pose proof (getMs_neg (d - now s)). lia. }
           rewrite Hh in G. eapply G; [exact He|constructor|]. cbn. destruct (more _ _); lia.
      * destruct H5 as (_ & _ & _ & _ & _ & _ & Hn). destruct (Hn eq_refl) as [-> _]. eapply G; [exact He|constructor|]. cbn. lia.
    + destruct H5 as (Hd & Hw & Hb). unfold more in G at 1.
      assert (J : forall j, k_obj k = Some j -> Some (upd (upd s j (set_jn false) [ERel j t]) t (set_pc PIdle) [ERet t k true (now s) (real s)]) = Some s' ->
        now s' = now s /\ real s' = real s /\ sane f (hist s') /\ allowed f (LRun t) /\
        exists x0 x', Some x = Some x0 /\ nth_error (thrs s') t = Some x' /\ (rank s' x' < rank s x0)%nat).
      { intros j Ej E. injection E as <-. split; [reflexivity|]. split; [reflexivity|]. split; [cbn; apply (Hsane [ERet t k true (now s) (real s); ERel j t]); repeat constructor|]. split; [exact A|].
        exists x, (set_pc PIdle (if (t =? j)%nat then set_jn false x else x)). split; [reflexivity|]. split; [cbn; rewrite !nth_modify, Nat.eqb_refl; destruct (t =? j)%nat; rewrite Ex; cbn; reflexivity|].
        cbn. unfold rank. rewrite Epc. destruct b; [lia|]. destruct (more s k); lia. }
      destruct (k_obj k) as [j|] eqn:Eo; destruct (k_dl k) as [|d|d] eqn:Ed.
      * apply (J j); auto.
      * destruct b; [apply (J j); auto|]. eapply G; [exact He|repeat constructor|]. cbn. lia.
      * destruct b; [apply (J j); auto|]. destruct (d - real s <=? 0) eqn:El.
        -- eapply G; [exact He|repeat constructor|]. cbn. destruct (real s <? d); lia.
        -- apply Z.leb_gt in El. eapply G; [exact He|repeat constructor|]. unfold rank, more. cbn [set_pc t_pc]. rewrite ?Ed.
           replace (real s <? d) with true by (symmetry; apply Z.ltb_lt; lia).
           assert (Hl : real s < d) by lia. pose proof (chunk_hot s Hl) as Hc. unfold hot in *. cbn [now]. rewrite Hc. lia.
      * exfalso. apply Hw; congruence.
      * destruct b; [destruct Hb as (j & E & _); discriminate|]. eapply G; [exact He|repeat constructor|]. cbn. lia.
      * destruct b; [destruct Hb as (j & E & _); discriminate|]. eapply G; [exact He|repeat constructor|]. unfold rank, more. cbn. rewrite ?Ed, ?Eo. destruct (real s <? d); lia.
    + eapply G; [exact He|repeat constructor|]. cbn. lia.
    + eapply G; [exact He|repeat constructor|]. cbn. lia.
  - destruct Ho as [-> Hok]. cbn in He. destruct (nth_error (thrs s) t) as [x|] eqn:Ex; [|discriminate].
    destruct (t_pc x) as [| | | |k w c| | | | | |] eqn:Epc; try discriminate. unfold enter, goto in He.
    assert (G : forall ip tm due, Some (upd s t (set_pc (PWait k w c ip tm due)) []) = Some s' ->
       now s' = now s /\ real s' = real s /\ sane f (hist s') /\ allowed f (LEnter t ok) /\
       exists x0 x', Some x = Some x0 /\ nth_error (thrs s') t = Some x' /\ (rank s' x' < rank s x0)%nat).
    { intros ip tm due E. injection E as <-. split; [reflexivity|]. split; [reflexivity|]. split; [exact Hs|]. split; [exact A|].
      exists x, (set_pc (PWait k w c ip tm due) x). split; [reflexivity|]. split; [cbn; rewrite nth_modify, Nat.eqb_refl, Ex; reflexivity|].
      unfold rank. rewrite Epc. cbn. unfold hot. cbn. destruct c; [destruct (z <=? now s)|]; lia. }
    destruct c as [d|]; [|eapply G; exact He]. cbv zeta in He. destruct ok; eapply G; exact He.
Qed.

Lemma own_bounded f boost n r s t ls s' x : reach f boost n r s -> sane f (hist s) -> nth_error (thrs s) t = Some x ->
  Forall (own f t) ls -> runl s ls = Some s' ->
  reach f boost n r s' /\ now s' = now s /\ real s' = real s /\ sane f (hist s') /\
  exists x', nth_error (thrs s') t = Some x' /\ (length ls + rank s' x' <= rank s x)%nat.
Proof.
  intros Hr Hs Hx Ho. revert s x Hr Hs Hx. induction Ho as [|l ls Hl Ho IH]; intros s x Hr Hs Hx Hrun; cbn in Hrun.
  - injection Hrun as <-. repeat split; auto. exists x. split; [exact Hx|]. cbn. lia.
  - destruct (exec s l) as [s1|] eqn:E; [|discriminate].
    destruct (@rank_step _ _ _ _ _ _ (inv_reach Hr) (inv2_reach Hr) Hs Hl E) as (E1 & E2 & Hs1 & Ha & x0 & x1 & Hx0 & Hx1 & Hlt).
    assert (x0 = x) by congruence. subst x0.
    destruct (IH s1 x1) as (R & N1 & N2 & S & x' & Hx' & Hle); auto; [econstructor; eauto|].
    split; [exact R|]. split; [congruence|]. split; [congruence|]. split; [exact S|]. exists x'. split; [exact Hx'|]. cbn. lia.
Qed.

(** ... so it can always run until it stops *)
Lemma settles_ex f boost n r s t x : reach f boost n r s -> sane f (hist s) -> nth_error (thrs s) t = Some x -> exists s', settles f t s s'.
Proof.
  intros Hr Hs Hx. remember (rank s x) as m eqn:Em. revert s x Hr Hs Hx Em. induction m as [m IH] using lt_wf_ind. intros s x Hr Hs Hx ->.
  assert (D : stuck s t \/ exists l s1, own f t l /\ exec s l = Some s1).
  { destruct (exec s (LRun t)) as [s1|] eqn:E1; [right; exists (LRun t), s1; split; [reflexivity|exact E1]|].
    destruct (exec s (LEnter t true)) as [s1|] eqn:E2; [right; exists (LEnter t true), s1; split; [split; auto|exact E2]|].
    left. split; [exact E1|]. split; [exact E2|]. cbn in *. rewrite Hx in *. destruct (t_pc x); auto. unfold enter, goto in *. destruct c; discriminate. }
  destruct D as [D|(l & s1 & Hl & E)]; [exists s, []; repeat split; auto; apply D|].
  destruct (@rank_step _ _ _ _ _ _ (inv_reach Hr) (inv2_reach Hr) Hs Hl E) as (E1 & E2 & Hs1 & Ha & x0 & x1 & Hx0 & Hx1 & Hlt).
  assert (x0 = x) by congruence. subst x0.
  destruct (IH _ Hlt s1 x1 ltac:(econstructor; eauto) Hs1 Hx1 eq_refl) as (s' & ls & Ho & Hrun & Hst).
  exists s', (l :: ls). split; [now constructor|]. split; [cbn; now rewrite E|exact Hst].
Qed.

(** ** What a thread that has stopped waits for *)
Lemma asleep f boost n r s t k : reach f boost n r s -> stuck s t -> doing t (hist s) = Waits k ->
  forall x, nth_error (thrs s) t = Some x ->
  (k_ipt k = true -> interruptible boost t (hist s) = true -> pending t (hist s) = false) /\
  (forall j, k_obj k = Some j -> In (EFin j) (hist s) -> ~ kept t j (hist s)) /\
  (sane f (hist s) -> match k_dl k with Never => True | Mono d => now s < d + 1000000
     | Real d => exists c w ip tm u, t_pc x = PWait k w (Some c) ip tm (Some u) /\ c <= now s + POLL /\ u < c + 1000000 /\ c <= u end).
Proof.
  intros Hr Hst Hd x Hx. pose proof (inv_reach Hr) as HI. pose proof (i_thr HI _ Hx) as [H1 H2 H3 H4 H5 H6 H7 H8].
  unfold okpc in H5.
  destruct (@stuck_cases _ _ _ _ HI Hx Hst) as [E|[E|(k' & w & c & ip & tm & due & E & Es & Ei & Eo)]]; rewrite E in H5; [congruence|congruence|].
  destruct H5 as (Hd' & Hw & Hc & Hh & Hip & Htm & Hn). assert (k' = k) by congruence. subst k'.
  split; [|split].
  - intros Hk Hb. rewrite Hk in Hip. cbn in Hip. unfold interruptible in Hb. rewrite <- H1, <- H3 in Hb. apply andb_true_iff in Hb. destruct Hb as [Hb1 Hb2].
    destruct (H4 Hb1) as [He _]. rewrite Hb1, He, Hb2 in Hip. subst ip. cbn in Ei. congruence.
  - intros j Ej Hf Hkept. unfold okh in Hh. destruct w as [j'|].
    + assert (j' = j) by congruence. subst j'. cbn in Es. unfold ended in Es. destruct (nth_error (thrs s) j) as [y|] eqn:Ey.
      * apply (o_end (i_thr HI _ Ey)) in Hf. rewrite Hf in Es. discriminate.
      * clear - HI Ey Hf Hr. (* only a thread can have ended *)
        exfalso. assert (G : forall s, reach f boost n r s -> In (EFin j) (hist s) -> (j < length (thrs s))%nat).
        { clear. induction 1 as [|s l s' Hr IH Ha He]; [cbn; tauto|]. intros Hin.
          assert (L : length (thrs s') = length (thrs s)) by (rewrite (i_len (@inv_step _ _ _ _ (inv_reach Hr) He)), (i_len (inv_reach Hr)); reflexivity).
          rewrite L. destruct l as [t o|t|t ok|t|dm dr]; cbn in He.
          - destruct (nth_error (thrs s) t) as [x|] eqn:Ex; [|discriminate]. unfold call in He. destruct (t_pc x); try discriminate.
            destruct o as [k|i|i| | | | |i|]; cbv zeta in He.
            + destruct (k_obj k) as [i|]; [destruct ((i =? t)%nat && joinable s i)|destruct (k_dl k); try discriminate]; injection He as <-; cbn in Hin; destruct Hin as [Hin|Hin]; try discriminate; auto.
            + destruct (joinable s i); injection He as <-; auto. cbn in Hin. destruct Hin as [Hin|Hin]; try discriminate; auto.
            + destruct (nth_error (thrs s) i) as [y|]; [|discriminate]. destruct (jn y); injection He as <-; auto. cbn in Hin. destruct Hin as [Hin|Hin]; try discriminate; auto.
            + destruct (enabled x && intr x); injection He as <-; cbn in Hin; destruct Hin as [Hin|Hin]; try discriminate; auto.
            + injection He as <-; cbn in Hin; destruct Hin as [Hin|Hin]; try discriminate; auto.
            + injection He as <-; cbn in Hin; destruct Hin as [Hin|Hin]; try discriminate; auto.
            + destruct (dis x); [discriminate|]. injection He as <-; cbn in Hin; destruct Hin as [Hin|Hin]; try discriminate; auto.
            + destruct (joinable s i); injection He as <-; cbn in Hin; [destruct Hin as [Hin|Hin]; try discriminate|]; auto.
            + injection He as <-; cbn in Hin; destruct Hin as [Hin|Hin]; auto. injection Hin as ->. apply nth_error_Some. congruence.
          - destruct (nth_error (thrs s) t) as [x|] eqn:Ex; [|discriminate]. unfold run, goto, begin, ret, joined in He.
            destruct (t_pc x) as [|k|k c|k c|k w c|k w c ip tm due|k w c ip tm due|k b|k| |]; try discriminate.
            + destruct (k_dl k); destruct (k_obj k); try destruct (0 <? d - real s); injection He as <-; cbn in Hin; try (destruct Hin as [Hin|Hin]; try discriminate); auto.
            + destruct (k_obj k) as [i|]; [|discriminate]. destruct (joinable s i); injection He as <-; cbn in Hin; try (destruct Hin as [Hin|Hin]; try discriminate); auto.
            + destruct (k_obj k) as [i|]; [|discriminate]. injection He as <-; auto.
            + destruct (signalled s w); [injection He as <-; auto|]. destruct (ip && intr x); [injection He as <-; auto|].
              destruct (over s due); [|discriminate]. destruct tm; injection He as <-; auto.
            + destruct c; [|injection He as <-; auto]. destruct tm; [injection He as <-; auto|]. cbv zeta in He. destruct (_ || _); injection He as <-; auto.
            + destruct (k_obj k) as [i|]; destruct (k_dl k) as [|d|d]; try (destruct b); try (destruct (d - real s <=? 0)); injection He as <-; cbn in Hin;
                repeat (destruct Hin as [Hin|Hin]; [discriminate|]); auto.
            + injection He as <-; cbn in Hin; destruct Hin as [Hin|Hin]; try discriminate; auto.
            + injection He as <-; cbn in Hin; destruct Hin as [Hin|Hin]; try discriminate; auto.
          - destruct (nth_error (thrs s) t) as [x|] eqn:Ex; [|discriminate]. destruct (t_pc x); try discriminate. unfold enter, goto in He.
            destruct c; [cbv zeta in He; destruct ok|]; injection He as <-; auto.
          - destruct (nth_error (thrs s) t) as [x|] eqn:Ex; [|discriminate]. destruct (t_pc x); try discriminate. injection He as <-; auto.
          - destruct (0 <=? dm); [|discriminate]. injection He as <-; auto. }
        specialize (G s Hr Hf). apply nth_error_None in Ey. lia.
    + rewrite Ej in Hh. destruct Hh as (u & Hu & Hi). exact (Hu (Hkept u Hi)).
  - intros Hs. pose proof (inv2_reach Hr t Hx) as H9. unfold timed in H9. rewrite E in H9. unfold okc in Hc. destruct (k_dl k) as [|d|d] eqn:Ed; [exact I| |].
    + subst c. destruct H9 as [_ H9]. destruct (H9 Hs) as (u & -> & Hdu & Hu). cbn in Eo. apply Z.leb_gt in Eo. lia.
    + destruct Hc as (z & -> & Hz). destruct H9 as [_ H9]. destruct (H9 Hs) as (u & -> & Hdu & Hu). cbn in Eo. apply Z.leb_gt in Eo.
      exists z, w, ip, tm, u. repeat split; auto. lia.
Qed.

(** ** While a thread runs alone in a call, nothing happens but that the call ends *)
Lemma own_hist f boost s t l s' : inv boost s -> own f t l -> exec s l = Some s' -> hist s' = hist s \/ doing t (hist s') = Nothing.
Proof.
  intros HI Ho He. destruct l as [|u|u ok| |]; cbn in Ho; try contradiction; cbn in He.
  - subst u. destruct (nth_error (thrs s) t) as [x|] eqn:Ex; [|discriminate]. unfold run, goto, begin, ret, joined in He.
    assert (R : forall e h, doing t (e :: h) = Nothing -> doing t ([e] ++ h) = Nothing) by auto.
    destruct (t_pc x) as [|k|k c|k c|k w c|k w c ip tm due|k w c ip tm due|k b|k| |]; try discriminate.
    + destruct (k_dl k); destruct (k_obj k); try destruct (0 <? d - real s); injection He as <-; auto; right; cbn; now rewrite Nat.eqb_refl.
    + destruct (k_obj k) as [i|]; [|discriminate]. destruct (joinable s i); injection He as <-; auto; right; cbn; now rewrite Nat.eqb_refl.
    + destruct (k_obj k) as [i|]; [|discriminate]. injection He as <-; auto.
    + destruct (signalled s w); [injection He as <-; auto|]. destruct (ip && intr x); [injection He as <-; auto|].
      destruct (over s due); [|discriminate]. destruct tm; injection He as <-; auto.
    + destruct c; [|injection He as <-; auto]. destruct tm; [injection He as <-; auto|]. cbv zeta in He. destruct (_ || _); injection He as <-; auto.
    + destruct (k_obj k) as [i|]; destruct (k_dl k) as [|d|d]; try (destruct b); try (destruct (d - real s <=? 0)); injection He as <-; auto;
        right; cbn; now rewrite Nat.eqb_refl.
    + injection He as <-; right; cbn; now rewrite Nat.eqb_refl.
    + injection He as <-; right; cbn; now rewrite Nat.eqb_refl.
  - destruct Ho as [-> _]. destruct (nth_error (thrs s) t) as [x|] eqn:Ex; [|discriminate]. destruct (t_pc x); try discriminate. unfold enter, goto in He.
    destruct c; [cbv zeta in He; destruct ok|]; injection He as <-; auto.
Qed.

Lemma nothing_stuck boost s t l f s' : inv boost s -> doing t (hist s) = Nothing -> own f t l -> exec s l = Some s' -> False.
Proof.
  intros HI Hd Ho He. destruct l as [|u|u ok| |]; cbn in Ho; try contradiction; cbn in He.
  - subst u. destruct (nth_error (thrs s) t) as [x|] eqn:Ex; [|discriminate]. pose proof (o_pc (i_thr HI _ Ex)) as H. unfold okpc in H. unfold run in He.
    destruct (t_pc x); try discriminate; destruct H as [H _]; congruence.
  - destruct Ho as [-> _]. destruct (nth_error (thrs s) t) as [x|] eqn:Ex; [|discriminate]. pose proof (o_pc (i_thr HI _ Ex)) as H. unfold okpc in H.
    destruct (t_pc x); try discriminate. destruct H as [H _]. congruence.
Qed.

Lemma own_hist_run f boost n r s t ls s' x : reach f boost n r s -> sane f (hist s) -> nth_error (thrs s) t = Some x ->
  Forall (own f t) ls -> runl s ls = Some s' -> hist s' = hist s \/ doing t (hist s') = Nothing.
Proof.
  intros Hr Hs Hx Ho. revert s x Hr Hs Hx. induction Ho as [|l ls Hl Ho IH]; intros s x Hr Hs Hx Hrun; cbn in Hrun.
  - injection Hrun as <-. now left.
  - destruct (exec s l) as [s1|] eqn:E; [|discriminate].
    destruct (@rank_step _ _ _ _ _ _ (inv_reach Hr) (inv2_reach Hr) Hs Hl E) as (E1 & E2 & Hs1 & Ha & x0 & x1 & Hx0 & Hx1 & Hlt).
    assert (Hr1 : reach f boost n r s1) by (econstructor; eauto).
    destruct (@own_hist _ _ _ _ _ _ (inv_reach Hr) Hl E) as [Eh|En].
    + destruct (IH s1 x1 Hr1 Hs1 Hx1 Hrun) as [H|H]; [left; congruence|now right].
    + destruct ls as [|l' ls]; cbn in Hrun; [injection Hrun as <-; now right|].
      inversion Ho as [|? ? Hl' Ho']. subst. destruct (exec s1 l') as [s2|] eqn:E'; [|discriminate].
      exfalso. exact (@nothing_stuck _ _ _ _ _ _ (inv_reach Hr1) En Hl' E').
Qed.

(** The call of thread t ends, whatever it does, and soon. *)
Definition ends_now (f : bool) (t : nat) (s : sys) : Prop :=
  (exists s', settles f t s s') /\
  forall ls s', Forall (own f t) ls -> runl s ls = Some s' -> (length ls <= 15)%nat /\ (stuck s' t -> doing t (hist s') = Nothing).

Definition reason (boost : list bool) (s : sys) (t : nat) (k : kind) : Prop :=
  (k_ipt k = true /\ interruptible boost t (hist s) = true /\ pending t (hist s) = true) \/
  (exists j, k_obj k = Some j /\ In (EFin j) (hist s) /\ kept t j (hist s)) \/
  (exists d, k_dl k = Mono d /\ d + 1000000 <= now s).

Lemma thread_exists f boost n r s t k : reach f boost n r s -> doing t (hist s) = Waits k -> exists x, nth_error (thrs s) t = Some x.
Proof.
  intros Hr Hd. destruct (nth_error (thrs s) t) as [x|] eqn:Ex; [eauto|exfalso]. apply nth_error_None in Ex.
  assert (G : forall s, reach f boost n r s -> (length (thrs s) <= t)%nat -> doing t (hist s) = Nothing); [|rewrite (G _ Hr Ex) in Hd; discriminate].
  clear. induction 1 as [|s l s' Hr IH Ha He]; [reflexivity|]. intros Hl.
  assert (L : length (thrs s') = length (thrs s)) by (rewrite (i_len (@inv_step _ _ _ _ (inv_reach Hr) He)), (i_len (inv_reach Hr)); reflexivity).
  rewrite L in Hl. specialize (IH Hl).
  assert (N : forall u x, nth_error (thrs s) u = Some x -> (u =? t)%nat = false).
  { intros u x Hu. apply Nat.eqb_neq. intros ->. assert (t < length (thrs s))%nat by (apply nth_error_Some; congruence). lia. }
  destruct l as [u o|u|u ok|u|dm dr]; cbn in He.
  - destruct (nth_error (thrs s) u) as [x|] eqn:Ex; [|discriminate]. pose proof (N _ _ Ex) as Nu. unfold call in He. destruct (t_pc x); try discriminate.
    destruct o as [k|i|i| | | | |i|]; cbv zeta in He.
    + destruct (k_obj k) as [i|]; [destruct ((i =? u)%nat && joinable s i)|destruct (k_dl k); try discriminate]; injection He as <-; cbn; rewrite Nu; exact IH.
    + destruct (joinable s i); injection He as <-; cbn; exact IH.
    + destruct (nth_error (thrs s) i) as [y|]; [|discriminate]. destruct (jn y); injection He as <-; cbn; exact IH.
    + destruct (enabled x && intr x); injection He as <-; cbn; rewrite ?Nu; exact IH.
    + injection He as <-; cbn; exact IH.
    + injection He as <-; cbn; exact IH.
    + destruct (dis x); [discriminate|]. injection He as <-; cbn; exact IH.
    + destruct (joinable s i); injection He as <-; cbn; exact IH.
    + injection He as <-; cbn; exact IH.
  - destruct (nth_error (thrs s) u) as [x|] eqn:Ex; [|discriminate]. pose proof (N _ _ Ex) as Nu. unfold run, goto, begin, ret, joined in He.
    destruct (t_pc x) as [|k|k c|k c|k w c|k w c ip tm due|k w c ip tm due|k b|k| |]; try discriminate.
    + destruct (k_dl k); destruct (k_obj k); try destruct (0 <? d - real s); injection He as <-; cbn; rewrite ?Nu; exact IH.
    + destruct (k_obj k) as [i|]; [|discriminate]. destruct (joinable s i); injection He as <-; cbn; rewrite ?Nu; exact IH.
    + destruct (k_obj k) as [i|]; [|discriminate]. injection He as <-; exact IH.
    + destruct (signalled s w); [injection He as <-; exact IH|]. destruct (ip && intr x); [injection He as <-; exact IH|].
      destruct (over s due); [|discriminate]. destruct tm; injection He as <-; exact IH.
    + destruct c; [|injection He as <-; exact IH]. destruct tm; [injection He as <-; exact IH|]. cbv zeta in He. destruct (_ || _); injection He as <-; exact IH.
    + destruct (k_obj k) as [i|]; destruct (k_dl k) as [|d|d]; try (destruct b); try (destruct (d - real s <=? 0)); injection He as <-; cbn; rewrite ?Nu; exact IH.
    + injection He as <-; cbn; rewrite ?Nu; exact IH.
    + injection He as <-; cbn; rewrite ?Nu; exact IH.
  - destruct (nth_error (thrs s) u) as [x|] eqn:Ex; [|discriminate]. destruct (t_pc x); try discriminate. unfold enter, goto in He.
    destruct c; [cbv zeta in He; destruct ok|]; injection He as <-; exact IH.
  - destruct (nth_error (thrs s) u) as [x|] eqn:Ex; [|discriminate]. destruct (t_pc x); try discriminate. injection He as <-; exact IH.
  - destruct (0 <=? dm); [|discriminate]. injection He as <-; exact IH.
Qed.

Lemma waits_or_not t h : doing t h = Nothing \/ doing t h = AtPoint \/ exists k, doing t h = Waits k.
Proof. destruct (doing t h); eauto. Qed.

Lemma point_not_stuck boost s t x : inv boost s -> nth_error (thrs s) t = Some x -> doing t (hist s) = AtPoint -> ~ stuck s t.
Proof.
  intros HI Hx Hd (H & _). cbn in H. rewrite Hx in H. pose proof (o_pc (i_thr HI _ Hx)) as Hp. unfold okpc in Hp. unfold run in H.
  destruct (t_pc x); try discriminate; try congruence; destruct Hp as [Hp _]; congruence.
Qed.

Lemma call_ends f boost n r s t k : reach f boost n r s -> sane f (hist s) -> doing t (hist s) = Waits k -> reason boost s t k -> ends_now f t s.
Proof.
  intros Hr Hs Hd Hre. destruct (@thread_exists _ _ _ _ _ _ _ Hr Hd) as [x Hx]. split; [eapply settles_ex; eauto|].
  intros ls s' Ho Hrun. destruct (@own_bounded _ _ _ _ _ _ _ _ _ Hr Hs Hx Ho Hrun) as (Hr' & En & Er & Hs' & x' & Hx' & Hle).
  split; [pose proof (rank_le s x); lia|]. intros Hst.
  destruct (@own_hist_run _ _ _ _ _ _ _ _ _ Hr Hs Hx Ho Hrun) as [Eh|Eh]; [|exact Eh].
  exfalso. rewrite <- Eh in Hd. pose proof (@asleep _ _ _ _ _ _ _ Hr' Hst Hd x' Hx') as (A1 & A2 & A3). unfold reason in Hre. rewrite <- Eh in Hre.
  destruct Hre as [(H1 & H2 & H3)|[(j & H1 & H2 & H3)|(d & H1 & H2)]].
  - rewrite (A1 H1 H2) in H3. discriminate.
  - exact (A2 j H1 H2 H3).
  - specialize (A3 Hs'). rewrite H1 in A3. lia.
Qed.

(** ** A user's clock that has been set past the time of a call *)
Definition winding (s : sys) (k : kind) (x : thr) : Prop :=
  match t_pc x with
  | PWait k' _ c _ _ due | PAgain k' _ c _ _ due => k' = k /\ over s due = true /\ hot s c = true
  | PDone k' _ => k' = k
  | PTop k' => k' = k /\ k_obj k = None
  | PIntr _ | PIdle => True
  | _ => False
  end.

Lemma winding_step f boost s t l s' k d x : inv boost s -> own f t l -> exec s l = Some s' -> nth_error (thrs s) t = Some x ->
  k_dl k = Real d -> d <= real s -> winding s k x -> exists x', nth_error (thrs s') t = Some x' /\ winding s' k x'.
Proof.
  intros HI Ho He Ex Ed Hd Hw. destruct l as [|u|u ok| |]; cbn in Ho; try contradiction; cbn in He.
  - subst u. rewrite Ex in He. unfold run, goto, begin, ret, joined in He. unfold winding in Hw.
    assert (G : forall g ev, Some (upd s t g ev) = Some s' -> winding (upd s t g ev) k (g x) -> exists x', nth_error (thrs s') t = Some x' /\ winding s' k x').
    { intros g ev E H. injection E as <-. exists (g x). split; [cbn; rewrite nth_modify, Nat.eqb_refl, Ex; reflexivity|exact H]. }
    assert (J : forall j ev, Some (upd (upd s j (set_jn false) [ERel j t]) t (set_pc PIdle) ev) = Some s' -> exists x', nth_error (thrs s') t = Some x' /\ winding s' k x').
    { intros j ev E. injection E as <-. exists (set_pc PIdle (if (t =? j)%nat then set_jn false x else x)).
      split; [cbn; rewrite !nth_modify, Nat.eqb_refl; destruct (t =? j)%nat; rewrite Ex; cbn; reflexivity|exact I]. }
    destruct (t_pc x) as [|k'|k' c|k' c|k' w c|k' w c ip tm due|k' w c ip tm due|k' b|k'| |] eqn:Epc; try discriminate; try contradiction.
    + destruct Hw as [-> Hn]. rewrite Ed, Hn in He. replace (0 <? d - real s) with false in He by (symmetry; apply Z.ltb_ge; lia). eapply G; [exact He|exact I].
    + destruct Hw as (-> & H1 & H2). destruct (signalled s w); [eapply G; [exact He|reflexivity]|]. destruct (ip && intr x); [eapply G; [exact He|exact I]|].
      rewrite H1 in He. destruct tm; [eapply G; [exact He|reflexivity]|]. eapply G; [exact He|]. cbn. auto.
    + destruct Hw as (-> & H1 & H2). destruct c as [c|]; [|discriminate]. destruct tm; [eapply G; [exact He|]; cbn; auto|]. cbv zeta in He.
      cbn in H2. apply Z.leb_le in H2.
      replace ((getMs (c - now s) =? INFINITE) || (0 <? getMs (c - now s))) with false in He; [eapply G; [exact He|reflexivity]|].
      symmetry. assert (getMs (c - now s) <= 0).
      { destruct (Z.eq_dec c (now s)) as [->|]; [rewrite Z.sub_diag; cbn; lia|]. pose proof (getMs_neg (c - now s)). lia. }
      apply orb_false_iff. split; [apply Z.eqb_neq; unfold INFINITE; lia|apply Z.ltb_ge; lia].
    + subst k'. rewrite Ed in He. destruct (k_obj k) as [j|] eqn:Eo.
      * destruct b; [eapply J; exact He|]. replace (d - real s <=? 0) with true in He by (symmetry; apply Z.leb_le; lia). eapply G; [exact He|exact I].
      * eapply G; [exact He|]. cbn. auto.
    + eapply G; [exact He|exact I].
  - destruct Ho as [-> _]. rewrite Ex in He. unfold winding in Hw. destruct (t_pc x); try discriminate; contradiction.
Qed.

Lemma winding_run f boost n r s t ls s' x k d : reach f boost n r s -> sane f (hist s) -> nth_error (thrs s) t = Some x ->
  k_dl k = Real d -> d <= real s -> winding s k x ->
  Forall (own f t) ls -> runl s ls = Some s' -> exists x', nth_error (thrs s') t = Some x' /\ winding s' k x'.
Proof.
  intros Hr Hs Hx Hk Hd Hw Ho. revert s x Hr Hs Hx Hd Hw. induction Ho as [|l ls Hl Ho IH]; intros s x Hr Hs Hx Hd Hw Hrun; cbn in Hrun.
  - injection Hrun as <-. eauto.
  - destruct (exec s l) as [s1|] eqn:E; [|discriminate].
    destruct (@rank_step _ _ _ _ _ _ (inv_reach Hr) (inv2_reach Hr) Hs Hl E) as (E1 & E2 & Hs1 & Ha & x0 & x1 & Hx0 & Hx1 & Hlt).
    destruct (@winding_step _ _ _ _ _ _ _ _ _ (inv_reach Hr) Hl E Hx Hk Hd Hw) as (x1' & Hx1' & Hw1).
    apply (IH s1 x1'); auto; [econstructor; eauto|lia].
Qed.

Lemma clock_forward f boost n r s t k d dm dr s1 : reach f boost n r s -> sane f (hist s) -> stuck s t -> doing t (hist s) = Waits k -> k_dl k = Real d ->
  exec s (LTick dm dr) = Some s1 -> POLL + 1000000 <= dm -> d <= real s1 -> ends_now f t s1.
Proof.
  intros Hr Hs Hst Hd Hk He Hdm Hdr. destruct (@thread_exists _ _ _ _ _ _ _ Hr Hd) as [x Hx].
  destruct (@asleep _ _ _ _ _ _ _ Hr Hst Hd x Hx) as (_ & _ & A). specialize (A Hs). rewrite Hk in A. destruct A as (c & w & ip & tm & u & Epc & Hc & Hu & Hcu).
  assert (Hr1 : reach f boost n r s1) by (apply (@r_step _ _ _ _ s (LTick dm dr)); [exact Hr|exact I|exact He]).
  cbn in He. destruct (0 <=? dm) eqn:E0; [|discriminate]. injection He as <-. cbn [real now thrs hist] in *. apply Z.leb_le in E0.
  set (s1 := Sys (now s + dm) (real s + dr) (thrs s) (hist s)) in *.
  assert (Hw : winding s1 k x).
  { unfold POLL in *. unfold winding. rewrite Epc. split; [reflexivity|]. cbn [over hot now s1]. split; apply Z.leb_le; lia. }
  split; [eapply settles_ex; eauto|].
  intros ls s' Ho Hrun. destruct (@own_bounded _ _ _ _ s1 _ _ _ _ Hr1 Hs Hx Ho Hrun) as (Hr' & En & Er & Hs' & x' & Hx' & Hle).
  split; [pose proof (rank_le s1 x); lia|]. intros Hst'.
  destruct (@winding_run _ _ _ _ s1 _ _ _ _ _ _ Hr1 Hs Hx Hk Hdr Hw Ho Hrun) as (x2 & Hx2 & Hw2).
  pose proof (o_pc (i_thr (inv_reach Hr') _ Hx2)) as Hp. unfold okpc in Hp.
  destruct (@stuck_cases _ _ _ _ (inv_reach Hr') Hx2 Hst') as [E|[E|(k' & w' & c' & ip' & tm' & due' & E & Es & Ei & Eo)]]; rewrite E in Hp.
  - exact Hp.
  - exact Hp.
  - unfold winding in Hw2. rewrite E in Hw2. destruct Hw2 as (_ & H & _). congruence.
Qed.
