(** * The unsigned generation counter of boost::barrier may wrap around

    As long as no thread is left behind by [W] groups, the barrier with a
    generation counter modulo [W] behaves like one whose counter never wraps. *)

From Verif Require Import MonTrace BR_Model BR_Spec BR_Proofs.

Section Sim.
  Variables (W W' : nat) (E : Type) (fct : E -> option nat) (intr : bool) (n : nat).
  Hypothesis HW : 0 < W.
  Hypothesis Hn : 0 < n.
  Hypothesis Hfct : forall e, fct e = Some n.

  Notation PW := (brprog W fct intr).
  Notation PU := (brprog W' fct intr).

  Definition fk (k : bk) : bk := match k with BWaiting g => BWaiting (g mod W) | _ => k end.
  Definition ft (x : btst) : btst :=
    match x with
    | Ready _ l op k => Ready bcv l op (fk k)
    | Asleep l op cv k => Asleep l op cv (fk k)
    | _ => x
    end.
  Definition absW (c : brconf) : brconf :=
    MkCfg (MkBar (b_count (sh c)) (b_gen (sh c) mod W)) (map ft (thr c)) (hist c).

  (** [g] was read during the present call. *)
  Definition recent (c : brconf) : Prop :=
    forall t x, nth_error (thr c) t = Some x ->
      match x with
      | Ready _ _ _ k | Asleep _ _ _ k =>
          exists a op b, hist c = a ++ ECall bres t op :: b /\ (forall op r, ~ In (EDone t op r) a) /\
            match k with BWaiting g => trues b <= g | _ => True end
      | _ => True
      end.

  Lemma recent_cons t k e h :
    (exists a op b, h = a ++ ECall bres t op :: b /\ (forall op r, ~ In (EDone t op r) a) /\
       match k with BWaiting g => trues b <= g | _ => True end) ->
    (forall op r, e <> EDone t op r) ->
    exists a op b, e :: h = a ++ ECall bres t op :: b /\ (forall op r, ~ In (EDone t op r) a) /\
       match k with BWaiting g => trues b <= g | _ => True end.
  Proof.
    intros (a & op & b & -> & H1 & H2) He. exists (e :: a), op, b. repeat split; auto.
    intros op0 r [Hin|Hin]; [eapply He; eauto|eapply H1; eauto].
  Qed.

  Lemma recent_step c c' :
    BInv W' intr n c -> trues (hist c') < W' -> recent c -> stepcase PU c c' -> recent c'.
  Proof.
    intros HB HT HR Hs.
    assert (HT0 : trues (hist c) < W').
    { destruct Hs as
       [t l op Ht Hp ->|t ps e l op k s' ns o thr' Ht Hfr Hd ->|t p l n0 ns thr' Ht Hd ->
       |t l op cv k Ht ->|t l op cv k k' Ht Hk ->|t l op cv k k' Ht Hk ->|t l op k k' Ht Hk ->]; auto.
      destruct o as [r|r ns0| | |]; cbn [after snd] in HT;
        try (eapply Nat.le_lt_trans; [apply trues_le|exact HT]); exact HT. }
    specialize (HB HT0).
    assert (Hwk : forall l', woken_rel (thr c) l' -> forall t x, nth_error l' t = Some x ->
      match x with
      | Ready _ _ _ k | Asleep _ _ _ k =>
          exists a op b, hist c = a ++ ECall bres t op :: b /\ (forall op r, ~ In (EDone t op r) a) /\
            match k with BWaiting g => trues b <= g | _ => True end
      | _ => True end).
    { intros l' Hw t x Hx. destruct (woken_inv Hw Hx) as (y & Hy & [->|[Ha ->]]); [apply HR; auto|].
      specialize (HR _ _ Hy). destruct y; auto. }
    destruct Hs as
     [t l op Ht Hp ->|t ps e l op k s' ns o thr' Ht Hfr Hd ->|t p l n0 ns thr' Ht Hd ->
     |t l op cv k Ht ->|t l op cv k k' Ht Hk ->|t l op cv k k' Ht Hk ->|t l op k k' Ht Hk ->];
      intros t1 x1 Hx1; cbn [thr hist] in Hx1 |- *.
    - apply nth_error_upd in Hx1 as [(-> & -> & _)|(Hne & Hx1)].
      + exists [], op, (hist c). repeat split; auto.
      + specialize (HR _ _ Hx1). destruct x1; auto; apply recent_cons; auto; discriminate.
    - pose proof (Hwk _ (deliver_all_woken Hd)) as HR'.
      apply nth_error_upd in Hx1 as [(-> & -> & _)|(Hne & Hx1)].
      + specialize (HR _ _ Ht). cbn in HR. cbn [frag brprog] in Hfr. destruct HB as [B1 B2 B3 B4 B5 B6 B6' B7 B8 B9 B10].
        destruct k as [|g|]; cbn in Hfr.
        * destruct (udec W' (b_count (sh c)) =? 0).
          -- rewrite Hfct in Hfr. destruct (n =? 0); inversion Hfr; subst; cbn; auto.
          -- inversion Hfr; subst; cbn. destruct HR as (a & op0 & b & E1 & E2 & _).
             exists a, op0, b. repeat split; auto. rewrite B2, E1. unfold trues. rewrite filter_app, app_length. simpl. lia.
        * destruct (g =? b_gen (sh c)); inversion Hfr; subst; cbn; auto.
        * inversion Hfr; subst; cbn; auto.
      + specialize (HR' _ _ Hx1). destruct o as [r|r ns0| | |]; cbn [after snd]; auto;
          destruct x1; auto; apply recent_cons; auto; congruence.
    - apply nth_error_upd in Hx1 as [(-> & -> & _)|(Hne & Hx1)]; [destruct ns; exact I|].
      apply (Hwk _ (deliver_woken Hd)); auto.
    - apply nth_error_upd in Hx1 as [(-> & -> & _)|(Hne & Hx1)]; [apply (HR _ _ Ht)|apply HR; auto].
    - discriminate.
    - apply nth_error_upd in Hx1 as [(-> & -> & _)|(Hne & Hx1)]; [|apply HR; auto].
      destruct k; try discriminate. cbn in Hk. destruct intr; [|discriminate]. injection Hk as <-.
      destruct (HR _ _ Ht) as (a & op0 & b & E1 & E2 & _). exists a, op0, b. auto.
    - apply nth_error_upd in Hx1 as [(-> & -> & _)|(Hne & Hx1)]; [|apply HR; auto].
      destruct k; try discriminate. cbn in Hk. destruct intr; [|discriminate]. injection Hk as <-.
      destruct (HR _ _ Ht) as (a & op0 & b & E1 & E2 & _). exists a, op0, b. auto.
  Qed.

  (** Deliveries commute with the abstraction. *)
  Lemma ft_asleep cv x : asleep_on PW cv (ft x) = asleep_on PU cv x.
  Proof. destruct x; reflexivity. Qed.
  Lemma ft_wake x : wake (ft x) = ft (wake x).
  Proof. destruct x; reflexivity. Qed.
  Lemma upd_map (l : list btst) i x : upd (map ft l) i (ft x) = map ft (upd l i x).
  Proof. revert i; induction l as [|y l IH]; intros [|i]; simpl; auto; f_equal; auto. Qed.

  Lemma deliver_abs nt p l :
    deliver PW nt p (map ft l) = option_map (map ft) (deliver PU nt p l).
  Proof.
    destruct nt as [cv|cv]; simpl.
    - assert (Ex : existsb (asleep_on PW cv) (map ft l) = existsb (asleep_on PU cv) l).
      { induction l as [|x l IH]; simpl; auto. rewrite IH. f_equal. apply ft_asleep. }
      rewrite Ex. destruct (existsb (asleep_on PU cv) l); auto.
      rewrite nth_error_map. destruct (nth_error l p) as [x|]; simpl; auto.
      rewrite ft_asleep. destruct (asleep_on PU cv x); auto. rewrite ft_wake, upd_map. reflexivity.
    - f_equal. rewrite !map_map. apply map_ext. intros x. unfold wake_if. rewrite ft_asleep.
      destruct (asleep_on PU cv x); auto. apply ft_wake.
  Qed.

  Lemma deliver_all_abs ns ps l :
    deliver_all PW ns ps (map ft l) = option_map (map ft) (deliver_all PU ns ps l).
  Proof.
    revert ps l; induction ns as [|nt ns IH]; intros ps l; simpl; auto.
    rewrite deliver_abs. destruct (deliver PU nt (hd 0 ps) l); simpl; auto.
  Qed.

  Lemma mod_eqb g T : g <= T -> T - g < W -> (g mod W =? T mod W) = (g =? T).
  Proof.
    intros H1 H2. destruct (Nat.eqb_spec g T) as [->|Hne]; [apply Nat.eqb_refl|].
    apply Nat.eqb_neq. intros He.
    pose proof (Nat.div_mod g W ltac:(lia)). pose proof (Nat.div_mod T W ltac:(lia)).
    assert (T / W = g / W) by nia. nia.
  Qed.

  Lemma uinc_mod T : S T < W' -> uinc W (T mod W) = (uinc W' T) mod W.
  Proof.
    intros HT. unfold uinc at 2. destruct (Nat.eqb_spec (S T) W'); [lia|].
    unfold uinc. pose proof (Nat.mod_upper_bound T W ltac:(lia)).
    pose proof (Nat.div_mod T W ltac:(lia)) as HD.
    destruct (Nat.eqb_spec (S (T mod W)) W) as [Heq|Hne].
    - apply Nat.mod_unique with (q := S (T / W)); lia.
    - apply Nat.mod_unique with (q := T / W); lia.
  Qed.

  Lemma sim_step c lb c' :
    BInv W' intr n c -> recent c -> patient W (hist c) -> trues (hist c') < W' ->
    step PW (absW c) lb = Some c' -> exists cu, step PU c lb = Some cu /\ c' = absW cu.
  Proof.
    intros HB HR HP HT' Hs.
    assert (HT0 : trues (hist c) < W').
    { destruct (step_hist _ _ _ Hs) as [H|[(t & op & H)|(t & op & r & H)]]; rewrite H in HT'; cbn [hist absW] in HT';
        try (eapply Nat.le_lt_trans; [apply trues_le|exact HT']); exact HT'. }
    specialize (HB HT0). destruct lb as [t op|t ps e|t|t|t]; simpl in Hs |- *; rewrite nth_error_map in Hs;
      destruct (nth_error (thr c) t) as [[l|l op0 k|l op0 cv k|l ns|]|] eqn:Ht; simpl in Hs; try discriminate.
    - injection Hs as <-. eexists; split; [reflexivity|]. unfold absW; cbn [sh thr hist]. rewrite <- upd_map. reflexivity.
    - assert (Hf : exists s' ns o, bfrag W' fct t e k (sh c) = (s', ns, o) /\
        bfrag W fct t e (fk k) (MkBar (b_count (sh c)) (b_gen (sh c) mod W)) =
          (MkBar (b_count s') (b_gen s' mod W), ns,
           match o with OSleep _ cv k' => OSleep bres cv (fk k') | _ => o end) /\
        match o with OYield _ _ _ => False | _ => True end).
      { destruct HB as [B1 B2 B3 B4 B5 B6 B6' B7 B8 B9 B10].
        destruct k as [|g|]; cbn.
        - destruct (b_count (sh c)) as [|cc] eqn:Hc; [lia|]. cbn [udec].
          destruct (cc =? 0) eqn:Hcc.
          + rewrite Hfct. destruct (n =? 0) eqn:Hn0; [apply Nat.eqb_eq in Hn0; lia|].
            do 3 eexists. split; [reflexivity|]. split; [|exact I]. cbn. f_equal. f_equal. f_equal.
            rewrite B2. apply uinc_mod.
            cbn in Hs. rewrite Hcc, Hfct, Hn0 in Hs. cbn in Hs. injection Hs as <-.
            cbn [hist] in HT'. rewrite trues_done in HT'. lia.
          + do 3 eexists. split; [reflexivity|]. split; [|exact I]. reflexivity.
        - destruct (HR _ _ Ht) as (a & opa & b & E1 & E2 & E3). cbn in E3.
          pose proof (Forall_nth_error B1 Ht) as Hg. cbn in Hg.
          assert (Ha : trues a < W) by (apply (HP [] (hist c) eq_refl a b t opa); auto).
          assert (trues (hist c) = trues a + trues b).
          { rewrite E1. unfold trues. rewrite filter_app, app_length. reflexivity. }
          rewrite mod_eqb by (rewrite B2; lia).
          destruct (g =? b_gen (sh c)); do 3 eexists; (split; [reflexivity|]); (split; [|exact I]);
            destruct (sh c); reflexivity.
        - do 3 eexists. split; [reflexivity|]. split; [|exact I]. destruct (sh c); reflexivity. }
      destruct Hf as (s' & ns & o & F1 & F2 & F3). cbn [frag brprog] in Hs |- *. cbn [sh absW] in Hs.
      rewrite F2 in Hs. rewrite F1. rewrite deliver_all_abs in Hs.
      destruct (deliver_all PU ns ps (thr c)) as [thr'|]; [|discriminate]. cbn [option_map] in Hs.
      destruct o as [r|r ns'|cv k'|k'|]; cbn in Hs |- *; try contradiction; injection Hs as <-;
        (eexists; split; [reflexivity|]); unfold absW; cbn [sh thr hist]; rewrite <- upd_map; try reflexivity.
      destruct ns'; reflexivity.
    - destruct ns as [|nt ns]; [discriminate|]. rewrite deliver_abs in Hs.
      destruct (deliver PU nt (hd 0 ps) (thr c)) as [thr'|]; [|discriminate]. cbn [option_map] in Hs. injection Hs as <-.
      eexists; split; [reflexivity|]. unfold absW; cbn [sh thr hist]. rewrite <- upd_map. destruct ns; reflexivity.
    - injection Hs as <-. eexists; split; [reflexivity|]. unfold absW; cbn [sh thr hist]. rewrite <- upd_map. reflexivity.
    - assert (Hi : b_intr intr (fk k) = option_map fk (b_intr intr k)) by (destruct k; simpl; auto; destruct intr; auto).
      rewrite Hi in Hs. destruct (b_intr intr k) as [k'|]; [|discriminate]. cbn in Hs. injection Hs as <-.
      eexists; split; [reflexivity|]. unfold absW; cbn [sh thr hist]. rewrite <- upd_map. reflexivity.
    - assert (Hi : b_intr intr (fk k) = option_map fk (b_intr intr k)) by (destruct k; simpl; auto; destruct intr; auto).
      rewrite Hi in Hs. destruct (b_intr intr k) as [k'|]; [|discriminate]. cbn in Hs. injection Hs as <-.
      eexists; split; [reflexivity|]. unfold absW; cbn [sh thr hist]. rewrite <- upd_map. reflexivity.
  Qed.

  Lemma patient_suffix h1 h2 : patient W (h1 ++ h2) -> patient W h2.
  Proof.
    intros H z1 z2 Hz. apply (H (h1 ++ z1) z2). rewrite <- app_assoc, Hz. reflexivity.
  Qed.

  Lemma trues_suffix h1 h2 : trues h2 <= trues (h1 ++ h2).
  Proof. unfold trues. rewrite filter_app, app_length. lia. Qed.

  Lemma sim_run m c :
    reachable PW m (MkBar n 0) tt c -> patient W (hist c) -> trues (hist c) < W' ->
    exists cu, reachable PU m (MkBar n 0) tt cu /\ c = absW cu.
  Proof.
    intros Hr HP HT.
    assert (G : forall c, reachable PW m (MkBar n 0) tt c -> patient W (hist c) -> trues (hist c) < W' ->
      exists cu, reachable PU m (MkBar n 0) tt cu /\ c = absW cu /\ recent cu).
    { clear c Hr HP HT. intros c [ls Hls]. revert ls c Hls.
      apply (@run_snoc_ind _ _ _ _ _ _ _ PW (init bk bop bres bcv m (MkBar n 0) tt) (fun _ c => patient W (hist c) -> trues (hist c) < W' ->
        exists cu, reachable PU m (MkBar n 0) tt cu /\ c = absW cu /\ recent cu)).
      - intros _ _. exists (init bk bop bres bcv m (MkBar n 0) tt). split; [apply reachable_init|]. split.
        + unfold absW, init; cbn. rewrite Nat.mod_0_l by lia. f_equal.
          clear. induction m; simpl; f_equal; auto.
        + intros t x Hx. simpl in Hx. apply nth_error_In, repeat_spec in Hx. subst x. exact I.
      - intros ls c lb c' Hrun IH Hs HP HT.
        assert (exists h, hist c' = h ++ hist c) as [h Hh].
        { destruct (step_hist _ _ _ Hs) as [H|[(t & op & H)|(t & op & r & H)]].
          - exists []; auto. - eexists [_]; simpl; eauto. - eexists [_]; simpl; eauto. }
        destruct IH as (cu & Hru & -> & HR).
        { rewrite Hh in HP. eapply patient_suffix; eauto. }
        { rewrite Hh in HT. eapply Nat.le_lt_trans; [apply trues_suffix|exact HT]. }
        assert (HP0 : patient W (hist cu)) by (rewrite Hh in HP; eapply patient_suffix; eauto).
        pose proof (BInv_reachable W' E fct intr n Hn Hfct _ _ Hru) as HB.
        destruct (sim_step _ _ _ HB HR HP0 HT Hs) as (cu' & Hs' & ->).
        exists cu'. split; [eapply reachable_step; eauto|]. split; auto.
        eapply recent_step; eauto. eapply step_inv; eauto. }
    destruct (G c Hr HP HT) as (cu & H1 & H2 & _). eauto.
  Qed.

  Lemma absW_quiescent c : quiescent (absW c) <-> quiescent c.
  Proof.
    unfold quiescent, absW; cbn [thr]. assert (H : forallb (@settled bk bop bcv unit) (map ft (thr c)) = forallb (@settled bk bop bcv unit) (thr c)); [|rewrite H; tauto].
    induction (thr c) as [|x l IH]; simpl; auto. rewrite IH. f_equal. destruct x; reflexivity.
  Qed.

  Lemma absW_blocked c : blocked_threads (absW c) = blocked_threads c.
  Proof.
    unfold blocked_threads, absW; cbn [thr]. induction (thr c) as [|x l IH]; simpl; auto.
    destruct x; simpl; auto.
  Qed.

  Lemma absW_crashed c : In (Crashed bk bop bcv unit) (thr (absW c)) -> In (Crashed bk bop bcv unit) (thr c).
  Proof.
    unfold absW; cbn [thr]. intros H. apply in_map_iff in H as (x & Hx & Hin). destruct x; try discriminate; auto.
  Qed.
End Sim.

(** ** The theorems of BR_Proofs for a wrapping counter *)

Section Wrapped.
  Variables (W : nat) (E : Type) (fct : E -> option nat) (n : nat).
  Hypothesis HW : 0 < W.
  Hypothesis Hn : 0 < n.
  Hypothesis Hfct : forall e, fct e = Some n.

  Lemma wrap_at_rest m c :
    reachable (brprog W fct false) m (MkBar n 0) tt c -> patient W (hist c) -> quiescent c ->
    trues (hist c) = calls (hist c) / n /\ falses (hist c) = (n - 1) * (calls (hist c) / n) /\
    blocked_threads c = calls (hist c) mod n.
  Proof.
    intros Hr HP Hq. destruct (sim_run W (S (trues (hist c))) E fct false n HW Hn Hfct m c Hr HP) as (cu & Hru & ->); [lia|].
    apply absW_quiescent in Hq. rewrite absW_blocked. cbn [hist absW] in *.
    eapply at_rest; eauto.
  Qed.

  Lemma wrap_counts m c :
    reachable (brprog W fct false) m (MkBar n 0) tt c -> patient W (hist c) ->
    n * trues (hist c) <= calls (hist c) /\ falses (hist c) <= (n - 1) * trues (hist c).
  Proof.
    intros Hr HP. destruct (sim_run W (S (trues (hist c))) E fct false n HW Hn Hfct m c Hr HP) as (cu & Hru & ->); [lia|].
    cbn [hist absW] in *. destruct (group_counts _ _ _ _ n Hn Hfct _ _ Hru ltac:(lia)) as [H1 H2]. auto.
  Qed.

  Lemma wrap_rest_with_intr m c :
    reachable (brprog W fct true) m (MkBar n 0) tt c -> patient W (hist c) -> quiescent c ->
    trues (hist c) = calls (hist c) / n /\ blocked_threads c <= calls (hist c) mod n.
  Proof.
    intros Hr HP Hq. destruct (sim_run W (S (trues (hist c))) E fct true n HW Hn Hfct m c Hr HP) as (cu & Hru & ->); [lia|].
    apply absW_quiescent in Hq. rewrite absW_blocked. cbn [hist absW] in *.
    eapply rest_with_intr; eauto.
  Qed.

  Lemma wrap_released intr m c t op h1 h2 :
    reachable (brprog W fct intr) m (MkBar n 0) tt c -> patient W (hist c) ->
    hist c = h1 ++ EDone t op (BRet false) :: h2 ->
    exists a t' op' b, h2 = a ++ EDone t' op' (BRet true) :: b /\ in_wait t b /\ forall op r, ~ In (EDone t op r) a.
  Proof.
    intros Hr HP Hh. destruct (sim_run W (S (trues (hist c))) E fct intr n HW Hn Hfct m c Hr HP) as (cu & Hru & ->); [lia|].
    cbn [hist absW] in *. eapply (released (S (trues (hist cu))) E fct intr n Hn Hfct m cu); eauto.
  Qed.

  Lemma wrap_no_crash intr m c :
    reachable (brprog W fct intr) m (MkBar n 0) tt c -> patient W (hist c) -> ~ In (Crashed bk bop bcv unit) (thr c).
  Proof.
    intros Hr HP Hin. destruct (sim_run W (S (trues (hist c))) E fct intr n HW Hn Hfct m c Hr HP) as (cu & Hru & ->); [lia|].
    apply absW_crashed in Hin. cbn [hist absW] in *. eapply (no_crash (S (trues (hist cu))) E fct intr n Hn Hfct m cu); eauto.
  Qed.
End Wrapped.
