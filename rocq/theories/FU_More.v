(** * More about futures: deferred setters, resets, deferred functions *)
From Verif Require Export FU_Proofs.
Set Implicit Arguments.

(** ** Once there is a value, it stays (all operations of a promise, also the deferred setters) *)
Definition fixedv (v : nat) (s : fst_) : Prop := done s = true /\ exc s = None /\ val s = Some v /\ defd s = false.
Definition plaink (k : fk) : Prop := match k with KStart op => op <> ORun /\ op <> OTaskDestroy | KFun _ => False | _ => waits (kop k) = true end.
Definition plaino (o : outcome fk fcv res) : Prop := match o with OYield _ _ k' | OSleep _ _ k' => plaink k' | _ => True end.
Lemma fixed_frag iag v t e k s s' ns o : ffrag iag t e k s = (s', ns, o) -> plaink k -> fixedv v s ->
  fixedv v s' /\
  match o with
  | ORet _ _ r => match kop k with OSet _ | OSetDef _ => r = (None, RAlready) | OGetSh | OGet => match snd r with RVal w => w = v | RExc _ => False | _ => True end | _ => True end
  | _ => True end.
Proof.
  intros Hf Hk (A & B & C & D). destruct s as [v0 x dn cs df vl tk stt cl]. cbn [done exc val defd] in *. subst.
  destruct k as [op|op|op|op|w|w|op]; try contradiction; cbn [plaink kop] in Hk; [destruct op; try (exfalso; destruct Hk; congruence)|destruct op; try discriminate|destruct op; try discriminate| | |destruct op; try discriminate]; destruct iag; cbn [ffrag with_notif] in Hf;
  unfold wait_part, conclude, take, look, has_value, has_exc in Hf; cbn [val exc done cons defd valid taken started calls andb orb set_valid set_taken set_started begin_call store mark_done] in Hf;
  repeat match type of Hf with context [if ?b then _ else _] => destruct b eqn:? end; inversion Hf; subst;
  cbn [kop snd]; repeat split; auto.
Qed.
Lemma plain_frag iag t e k s s' ns o : ffrag iag t e k s = (s', ns, o) -> defd s = false -> plaink k -> defd s' = false /\ plaino o.
Proof.
  intros Hf D Hk. destruct s as [v0 x dn cs df vl tk stt cl]. cbn [done exc val defd calls] in *. subst.
  destruct k as [op|op|op|op|w|w|op]; try contradiction; cbn [plaink kop] in Hk; [destruct op; try (exfalso; destruct Hk; congruence); try destruct o0|destruct op; try discriminate| | | |]; destruct iag; cbn [ffrag with_notif] in Hf;
  open_frag Hf; inversion Hf; subst; cbn; auto.
Qed.

Section Promise.
  Variables (iag ext : bool).
  Notation P := (fuprog iag (ops_of KPromise ext false)).
  Definition plain (x : tst) : Prop := match x with Ready _ _ op k => kop k = op /\ plaink k | Asleep _ op _ k => k = KLoop op /\ plaink k | Tail _ _ _ _ => False | _ => True end.
  Definition J (c : fuconf) : Prop := defd (sh c) = false /\ Forall plain (thr c).
  Lemma J_step c c' : J c -> stepcase P c c' -> J c'.
  Proof.
    intros (H1 & H2) Hs. destruct Hs as
     [t l op Ht Hp ->|t ps e l op k s' ns o thr' Ht Hfr Hd ->|t p l n ns thr' Ht Hd ->
     |t l op cv k Ht ->|t l op cv k k' Ht Hk ->|t l op cv k k' Ht Hk ->|t l op k k' Ht Hk ->]; unfold J; cbn [sh thr hist] in *.
    - split; auto. apply Forall_upd; auto. cbn. split; auto. split; intros ->; discriminate.
    - pose proof (Forall_nth_error H2 Ht) as [Hx Hz]. cbn [frag fuprog] in Hfr. subst op.
      destruct (plain_frag _ _ _ _ _ Hfr H1 Hz) as (F1 & F2). pose proof (frag_no_fin _ _ _ _ _ _ _ _ Hfr) as F3. pose proof (frag_kop _ _ _ _ _ _ _ _ Hfr) as F4.
      split; auto. apply Forall_upd.
      + eapply woken_Forall; [eapply deliver_all_woken; eauto| |auto]. intros [] Hy; try discriminate. intros [-> ?]. split; auto.
      + destruct o; try contradiction; cbn; auto.
    - destruct (Forall_nth_error H2 Ht).
    - split; auto. apply Forall_upd; auto. destruct (Forall_nth_error H2 Ht) as [-> ?]. split; auto.
    - split; auto. apply Forall_upd; auto. pose proof (Forall_nth_error H2 Ht) as [-> ?]. cbn in Hk. destruct op; try discriminate. injection Hk as <-. split; auto.
    - split; auto. apply Forall_upd; auto. pose proof (Forall_nth_error H2 Ht) as [-> ?]. cbn in Hk. injection Hk as <-. split; auto.
    - split; auto. apply Forall_upd; auto. pose proof (Forall_nth_error H2 Ht) as [? ?]. cbn in Hk. destruct k; try discriminate. injection Hk as <-. split; auto.
  Qed.
  Lemma J_reachable n c : reachable P n (finit KPromise) tt c -> J c.
  Proof.
    apply (reachable_inv P J).
    - split; [reflexivity|]. apply Forall_forall; intros x Hx; apply repeat_spec in Hx; subst; exact I.
    - intros c0 c1. apply J_step.
  Qed.
  Definition after_value (v : nat) (op : fop) (r : res) : Prop :=
    match op with OSet _ | OSetDef _ => r = (None, RAlready) | OGetSh | OGet => match snd r with RVal w => w = v | RExc _ => False | _ => True end | _ => True end.
  Lemma fixed_step v c c' : J c -> fixedv v (sh c) -> stepcase P c c' -> fixedv v (sh c') /\
    (forall t op r, hist c' = EDone t op r :: hist c -> after_value v op r).
  Proof.
    intros (H1 & H2) HF Hs. destruct Hs as
     [t l op Ht Hp ->|t ps e l op k s' ns o thr' Ht Hfr Hd ->|t p l n ns thr' Ht Hd ->
     |t l op cv k Ht ->|t l op cv k k' Ht Hk ->|t l op cv k k' Ht Hk ->|t l op k k' Ht Hk ->]; cbn [sh hist];
     try (split; [exact HF|]; intros t0 op0 r0 E; apply (f_equal (@length _)) in E; simpl in E; lia).
    - split; [exact HF|]. intros t0 op0 r0 E. discriminate.
    - pose proof (Forall_nth_error H2 Ht) as [Hx Hz]. cbn [frag fuprog] in Hfr. subst op.
      destruct (fixed_frag _ _ _ _ Hfr Hz HF) as (G1 & G3). split; [exact G1|]. intros t0 op0 r0 E. pose proof (frag_no_fin _ _ _ _ _ _ _ _ Hfr) as F3.
      destruct o as [r|r ns'|cv k'|k'|]; try contradiction; cbn [after snd] in E; try (apply (f_equal (@length _)) in E; simpl in E; lia).
      injection E as <- <- <-. exact G3.
  Qed.
  Lemma fixed_run v ls : forall c c', J c -> fixedv v (sh c) -> run P c ls = Some c' ->
    J c' /\ fixedv v (sh c') /\ (forall h2 t op r h1, hist c' = h2 ++ EDone t op r :: h1 -> length (hist c) <= length h1 -> after_value v op r).
  Proof.
    induction ls as [|lb ls IH] using rev_ind; intros c c' HJ HF Hr.
    - injection Hr as <-. split; auto. split; auto. intros h2 t op r h1 E Hl. rewrite E, app_length in Hl. simpl in Hl. lia.
    - rewrite run_app in Hr. destruct (run P c ls) as [c1|] eqn:E1; [|discriminate]. simpl in Hr. destruct (step P c1 lb) as [c2|] eqn:E2; [|discriminate]. injection Hr as <-.
      destruct (IH _ _ HJ HF E1) as (J1 & F1 & L1). pose proof E2 as Hs. apply step_inv in Hs. destruct (fixed_step J1 F1 Hs) as [F2 L2].
      split; [eapply J_step; eauto|]. split; auto. intros h2 t op r h1 E Hl.
      destruct (step_hist _ _ _ E2) as [Eh|[(t' & op' & Eh)|(t' & op' & r' & Eh)]]; rewrite Eh in E; [eauto| |].
      + apply split_cons in E as [[E _]|(h2' & -> & E)]; [discriminate|eauto].
      + apply split_cons in E as [[E Eb]|(h2' & -> & E)]; [|eauto]. subst h1. injection E as <- <- <-. exact (L2 _ _ _ Eh).
  Qed.
End Promise.

(** ** packaged_task: calls between resets *)
Definition is_reset (ev : fevent) : bool := match ev with EDone _ OReset _ => true | _ => false end.
Definition room (s : fst_) : nat := b2n (negb (started s)).
Definition taskk (k : fk) : Prop := match k with KStart _ => True | KFun op => op = ORun | _ => waits (kop k) = true end.
Lemma task_frag iag t e k s s' ns o : ffrag iag t e k s = (s', ns, o) -> defd s = false -> taskk k -> ops_of KTask false true (kop k) = true ->
  defd s' = false /\ match o with OYield _ _ k' | OSleep _ _ k' => taskk k' | _ => True end /\
  (kop k <> OReset -> calls s' + room s' <= calls s + room s) /\ calls s' <= S (calls s) /\ calls s <= calls s' /\
  (kop k = ORun -> started s = true -> k = KStart ORun -> o = ORet fk fcv (None, RStarted)).
Proof.
  intros Hf D Hk Ha. destruct s as [v0 x dn cs df vl tk stt cl]. unfold room. cbn [done exc val defd calls started] in *. subst.
  destruct k as [op|op|op|op|w|w|op]; cbn [kop taskk] in *; try subst op; [destruct op; try discriminate Ha|destruct op; try discriminate Ha| |destruct e| | |]; destruct iag; cbn [ffrag with_notif] in Hf;
  open_frag Hf; inversion Hf; subst; cbn; repeat split; auto; try (destruct stt; cbn; lia); try congruence; try (intros; lia).
Qed.
Section Task.
  Variable iag : bool.
  Notation al := (ops_of KTask false true).
  Notation P := (fuprog iag al).
  Definition taskx (x : tst) : Prop := match x with Ready _ _ op k => taskk k | Asleep _ _ _ k => taskk k | _ => True end.
  Definition JT (c : fuconf) : Prop := defd (sh c) = false /\ Forall taskx (thr c) /\ Forall (ok0 al) (thr c).
  Lemma JT_step c c' : JT c -> stepcase P c c' -> JT c' /\ calls (sh c) <= calls (sh c') /\
    ((forall ev, hist c' = ev :: hist c -> is_reset ev = false) -> calls (sh c') + room (sh c') <= calls (sh c) + room (sh c)).
  Proof.
    intros (H1 & H2 & H3) Hs. pose proof (ok0_step _ _ _ _ H3 Hs) as H3'. destruct Hs as
     [t l op Ht Hp ->|t ps e l op k s' ns o thr' Ht Hfr Hd ->|t p l n ns thr' Ht Hd ->
     |t l op cv k Ht ->|t l op cv k k' Ht Hk ->|t l op cv k k' Ht Hk ->|t l op k k' Ht Hk ->]; unfold JT; cbn [sh thr hist] in *;
     try (split; [split; [exact H1|split; [|exact H3']]|lia]).
    - apply Forall_upd; auto. exact I.
    - pose proof (Forall_nth_error H3 Ht) as [Hx Ha]. pose proof (Forall_nth_error H2 Ht) as Hz. cbn [frag fuprog taskx] in *. subst op.
      destruct (task_frag _ _ _ _ _ Hfr H1 Hz Ha) as (F1 & F2 & F3 & F4 & F5 & _). pose proof (frag_no_fin _ _ _ _ _ _ _ _ Hfr) as F6.
      split; [split; [exact F1|split; [|exact H3']]|].
      + apply Forall_upd.
        * eapply woken_Forall; [eapply deliver_all_woken; eauto| |auto]. intros [] _ Hy; exact Hy.
        * destruct o; try contradiction; exact F2 || exact I.
      + split; [exact F5|]. intros Hev. apply F3. intros Ek. destruct k as [op|op|op|op|w|w|op]; cbn [kop] in *; try discriminate; subst op; try discriminate Hz.
        cbn in Hfr. injection Hfr as <- <- <-. specialize (Hev _ eq_refl). discriminate.
    - destruct (Forall_nth_error H3 Ht).
    - apply Forall_upd; auto. exact (Forall_nth_error H2 Ht).
    - apply Forall_upd; auto. pose proof (Forall_nth_error H2 Ht) as Hz. cbn in Hk, Hz |- *. destruct k as [| []| | | | |]; try discriminate. injection Hk as <-. exact Hz.
    - apply Forall_upd; auto. pose proof (Forall_nth_error H2 Ht) as Hz. cbn in Hk, Hz |- *. destruct k; try discriminate. injection Hk as <-. exact Hz.
    - apply Forall_upd; auto. pose proof (Forall_nth_error H2 Ht) as Hz. cbn in Hk, Hz |- *. destruct k; try discriminate. injection Hk as <-. exact Hz.
  Qed.
  Lemma JT_reachable n c : reachable P n (finit KTask) tt c -> JT c.
  Proof.
    apply (reachable_inv P JT).
    - split; [reflexivity|]. split; apply Forall_forall; intros x Hx; apply repeat_spec in Hx; subst; exact I.
    - intros c0 c1 HJ Hs. exact (proj1 (JT_step HJ Hs)).
  Qed.
  Lemma JT_run ls : forall c c', JT c -> run P c ls = Some c' -> exists h, hist c' = h ++ hist c /\ JT c' /\ calls (sh c) <= calls (sh c') /\ (existsb is_reset h = false -> calls (sh c') + room (sh c') <= calls (sh c) + room (sh c)).
  Proof.
    induction ls as [|lb ls IH]; intros c c' HJ Hr.
    - injection Hr as <-. exists []. repeat split; auto; apply HJ.
    - simpl in Hr. destruct (step P c lb) as [c1|] eqn:E; [|discriminate]. pose proof E as Hs. apply step_inv in Hs.
      destruct (JT_step HJ Hs) as (J1 & L1 & R1). destruct (IH _ _ J1 Hr) as (h & Eh & J2 & L2 & R2).
      destruct (step_hist _ _ _ E) as [X|[(t' & op' & X)|(t' & op' & r' & X)]]; rewrite X in Eh.
      + exists h. repeat split; auto; try apply J2; try lia. intros Hh. specialize (R2 Hh). assert (calls (sh c1) + room (sh c1) <= calls (sh c) + room (sh c)); [|lia].
        apply R1. intros ev Ev. rewrite X in Ev. apply (f_equal (@length _)) in Ev. simpl in Ev. lia.
      + exists (h ++ [ECall res t' op']). rewrite <- app_assoc. repeat split; auto; try apply J2; try lia. rewrite existsb_app. intros Hh. apply orb_false_elim in Hh as [Hh _]. specialize (R2 Hh).
        assert (calls (sh c1) + room (sh c1) <= calls (sh c) + room (sh c)); [|lia]. apply R1. intros ev Ev. rewrite X in Ev. injection Ev as <-. reflexivity.
      + exists (h ++ [EDone t' op' r']). rewrite <- app_assoc. repeat split; auto; try apply J2; try lia. rewrite existsb_app. intros Hh. apply orb_false_elim in Hh as [Hh Hh2]. specialize (R2 Hh).
        assert (calls (sh c1) + room (sh c1) <= calls (sh c) + room (sh c)); [|lia]. apply R1. intros ev Ev. rewrite X in Ev. injection Ev as <-. simpl in Hh2. now rewrite orb_false_r in Hh2.
  Qed.
End Task.

(** ** Deferred functions *)
Definition may_call (op : fop) : bool := calls_fun KDeferred op.
Definition begun (h : list fevent) : bool := existsb (fun ev => match ev with ECall _ _ op => may_call op | _ => false end) h.
Definition opx (x : tst) : Prop := match x with Ready _ _ op k => may_call op = false /\ k = KStart op | Asleep _ _ _ _ => False | _ => True end.
Lemma def_frag iag t e op s s' ns o : ffrag iag t e (KStart op) s = (s', ns, o) -> ops_of KDeferred false false op = true -> may_call op = false -> defd s = true ->
  calls s' = calls s /\ exists r, o = ORet fk fcv (None, r) /\ (op = OWaitUntil -> r = RDeferred).
Proof.
  intros Hf Ha Hm Hd. destruct s as [v0 x dn cs df vl tk stt cl]. cbn [done exc val defd calls started] in *. subst df.
  destruct op; try discriminate; cbn in Hf; inversion Hf; subst; cbn; eauto; split; auto; eexists; split; eauto; discriminate.
Qed.
Lemma timed_frag iag t e k s s' ns o : ffrag iag t e k s = (s', ns, o) -> kop k = OWaitUntil -> isF k = 0 -> match o with ORet _ _ (x, r) => x = None | _ => True end.
Proof.
  intros Hf Ha Hm. destruct s as [v0 x dn cs df vl tk stt cl]. destruct k; try discriminate; cbn [kop] in Ha; subst; cbn in Hf; open_frag Hf; inversion Hf; subst; reflexivity || exact I.
Qed.
Section Deferred.
  Variable iag : bool.
  Notation al := (ops_of KDeferred false false).
  Notation P := (fuprog iag al).
  Lemma al_std op : al op = true -> std KDeferred op = true.
  Proof. auto. Qed.
  Lemma unbegun n c : reachable P n (finit KDeferred) tt c -> begun (hist c) = false -> calls (sh c) = 0 /\ Forall opx (thr c).
  Proof.
    apply (reachable_ind' (P := P) (fun c => begun (hist c) = false -> calls (sh c) = 0 /\ Forall opx (thr c))).
    - intros _. split; auto. apply Forall_forall; intros x Hx; apply repeat_spec in Hx; subst; exact I.
    - intros c0 c1 Hr IH Hs. pose proof (ok0_reachable _ _ _ _ _ Hr) as H0. destruct (Inv_reachable al_std Hr) as [Hst HN _ _]. destruct Hs as
       [t l op Ht Hp ->|t ps e l op k s' ns o thr' Ht Hfr Hd ->|t p l n' ns thr' Ht Hd ->
       |t l op cv k Ht ->|t l op cv k k' Ht Hk ->|t l op cv k k' Ht Hk ->|t l op k k' Ht Hk ->]; cbn [sh thr hist] in *; intros Hb.
      + simpl in Hb. apply orb_false_elim in Hb as [Hb1 Hb2]. destruct (IH Hb2) as [I1 I2]. split; auto. apply Forall_upd; auto. split; auto.
      + assert (Hb' : begun (hist c0) = false) by (destruct o; simpl in Hb; auto).
        destruct (IH Hb') as [I1 I2]. pose proof (Forall_nth_error I2 Ht) as [Ho ->]. pose proof (Forall_nth_error H0 Ht) as [Hx Ha].
        pose proof (n_calls _ _ _ HN) as N4. rewrite I1 in N4. destruct (defd (sh c0)) eqn:Ed; [|discriminate].
        cbn [frag fuprog] in *. destruct (def_frag _ _ _ _ _ Hfr Ha Ho Ed) as (F1 & r & -> & _).
        split; [congruence|]. apply Forall_upd; [|exact I].
        eapply woken_Forall; [eapply deliver_all_woken; eauto| |auto]. intros [] Hy1 Hy; try discriminate. destruct Hy.
      + destruct (Forall_nth_error Hst Ht).
      + destruct (IH Hb) as [I1 I2]. destruct (Forall_nth_error I2 Ht).
      + destruct (IH Hb) as [I1 I2]. destruct (Forall_nth_error I2 Ht).
      + destruct (IH Hb) as [I1 I2]. destruct (Forall_nth_error I2 Ht).
      + destruct (IH Hb) as [I1 I2]. destruct (Forall_nth_error I2 Ht) as [_ ->]. discriminate.
  Qed.

  Lemma deferred_timed n c h2 t x r h1 : reachable P n (finit KDeferred) tt c -> hist c = h2 ++ EDone t OWaitUntil (x, r) :: h1 ->
    x = None /\ (begun h1 = false -> r = RDeferred).
  Proof.
    intros Hr E. destruct (event_step P _ _ _ Hr E) as (c1 & lb & c2 & Hr1 & Hs & E1 & E2 & _). apply step_inv in Hs.
    pose proof (ok0_reachable _ _ _ _ _ Hr1) as H0. destruct (Inv_reachable al_std Hr1) as [Hst HN _ _]. pose proof (unbegun Hr1) as HU. rewrite E1 in HU. destruct Hs as
     [t' l op Ht Hp ->|t' ps e l op k s' ns o thr' Ht Hfr Hd ->|t' p l n' ns thr' Ht Hd ->
     |t' l op cv k Ht ->|t' l op cv k k' Ht Hk ->|t' l op cv k k' Ht Hk ->|t' l op k k' Ht Hk ->]; cbn [hist] in E2;
     try (exfalso; rewrite E1 in E2; apply (f_equal (@length _)) in E2; simpl in E2; lia); [rewrite E1 in E2; discriminate|].
    pose proof (Forall_nth_error H0 Ht) as [Hx Ha]. pose proof (Forall_nth_error Hst Ht) as [_ Hz]. cbn [frag fuprog] in Hfr. subst op.
    pose proof (frag_no_fin _ _ _ _ _ _ _ _ Hfr) as F1.
    destruct o as [r'|r' ns'|cv k'|k'|]; try contradiction; cbn [after snd] in E2; rewrite E1 in E2;
      try (exfalso; apply (f_equal (@length _)) in E2; simpl in E2; lia).
    injection E2 as <- Ek Er. subst r'.
    split.
    - apply (timed_frag _ _ _ _ _ Hfr Ek). destruct k; auto. cbn [kop] in *. subst op. discriminate Hz.
    - intros Hb. destruct (HU Hb) as [U1 U2]. destruct (Forall_nth_error U2 Ht) as [Um Uk]. rewrite Ek in *. subst k.
      pose proof (n_calls _ _ _ HN) as N4. rewrite U1 in N4. destruct (defd (sh c1)) eqn:Ed; [|discriminate].
      destruct (def_frag _ _ _ _ _ Hfr Ha Um Ed) as (_ & r0 & E0 & F). injection E0 as -> ->. auto.
  Qed.

  (** the first thread that waits without a time limit begins the call *)
  Lemma deferred_first n c t l op e : reachable P n (finit KDeferred) tt c -> calls (sh c) = 0 -> may_call op = true -> valid (sh c) = true ->
    nth_error (thr c) t = Some (Ready fcv l op (KStart op)) ->
    exists c', step P c (LRun fop t [] e) = Some c' /\ calls (sh c') = 1 /\ nth_error (thr c') t = Some (Ready fcv l op (KFun op)).
  Proof.
    intros Hr H0 Hm Hv Ht. destruct (Inv_reachable al_std Hr) as [Hst HN _ _]. pose proof (n_calls _ _ _ HN) as N4. rewrite H0 in N4.
    destruct (defd (sh c)) eqn:Ed; [|discriminate]. unfold step. rewrite Ht.
    assert (X : exists s', ffrag iag t e (KStart op) (sh c) = (s', [], OYield fcv res (KFun op)) /\ calls s' = 1).
    { destruct (sh c) as [v x dn cs df vl tk stt cl]. cbn in Ed, Hv, H0. subst. destruct op; try discriminate; destruct iag; cbn; eauto. }
    destruct X as (s' & X & Y). cbn [frag fuprog]. rewrite X. cbn. eexists. split; [reflexivity|]. cbn [sh thr]. split; auto.
    apply nth_error_upd_same. apply nth_error_Some. congruence.
  Qed.
End Deferred.

(** only the calls that may call the function did so (deferred functions) *)
Lemma ran_frag iag kd t e k s s' ns o : ffrag iag t e k s = (s', ns, o) -> okk kd s (kop k) k -> ops_of kd false false (kop k) = true ->
  match o with ORet _ _ (Some _, _) => calls_fun kd (kop k) = true | _ => True end.
Proof.
  intros Hf [_ Hk] Ha. destruct s as [v0 x dn cs df vl tk stt cl].
  destruct k as [op|op|op|op|w|w|op]; cbn [kop] in *; [destruct op|destruct op| |destruct e; destruct o; auto; destruct r as [[]]; auto| | |]; destruct iag; cbn [ffrag with_notif] in Hf;
  open_frag Hf; inversion Hf; subst; exact I.
Qed.
Lemma ok_ran iag n c : reachable (fuprog iag (ops_of KDeferred false false)) n (finit KDeferred) tt c ->
  forall ev, In ev (hist c) -> match ev with EDone _ op (x, _) => ops_of KDeferred false false op = true /\ (x <> None -> calls_fun KDeferred op = true) | _ => True end.
Proof.
  intros Hr ev Hin. apply in_split in Hin as (h2 & h1 & E). destruct ev as [|t op [x q]]; auto.
  destruct (event_step _ _ _ _ Hr E) as (c1 & lb & c2 & Hr1 & Hs & E1 & E2 & _). apply step_inv in Hs. pose proof (ok0_reachable _ _ _ _ _ Hr1) as H0.
  assert (Hal : forall op, ops_of KDeferred false false op = true -> std KDeferred op = true) by auto. destruct (Inv_reachable Hal Hr1) as [Hst _ _ _].
  destruct Hs as
   [t' l op' Ht Hp ->|t' ps e l op' k s' ns o thr' Ht Hfr Hd ->|t' p l n' ns thr' Ht Hd ->
   |t' l op' cv k Ht ->|t' l op' cv k k' Ht Hk ->|t' l op' cv k k' Ht Hk ->|t' l op' k k' Ht Hk ->]; cbn [hist] in E2;
   try (exfalso; rewrite E1 in E2; apply (f_equal (@length _)) in E2; simpl in E2; lia); [rewrite E1 in E2; discriminate|].
  pose proof (Forall_nth_error H0 Ht) as [Hx Ha]. pose proof (Forall_nth_error Hst Ht) as Hok. cbn [frag fuprog stat] in *. subst op'. pose proof (frag_no_fin _ _ _ _ _ _ _ _ Hfr) as F1.
  destruct o as [r'|r' ns'|cv k'|k'|]; try contradiction; cbn [after snd] in E2; rewrite E1 in E2;
    try (exfalso; apply (f_equal (@length _)) in E2; simpl in E2; lia).
  injection E2 as <- Ek Er. subst r'. pose proof (ran_frag _ _ _ Hfr Hok Ha) as F. rewrite Ek in *. split; auto. intros Hn. destruct x; [exact F|congruence].
Qed.

(** A successful deferred setter keeps the destructor of the promise from storing broken_promise. *)
Section DefDestroy.
  Variables iag : bool.
  Notation P := (fuprog iag (ops_of KPromise true false)).
  Definition DD (c : fuconf) : Prop :=
    (forall t o, In (EDone t (OSetDef o) (None, ROk)) (hist c) -> cons (sh c) = true) /\
    (forall h2 t r h1, hist c = h2 ++ EDone t ODestroy r :: h1 -> (exists t1 o, In (EDone t1 (OSetDef o) (None, ROk)) h1) -> r = (None, ROk)).
  Lemma cons_frag t e k s s' ns o : ffrag iag t e k s = (s', ns, o) -> defd s = false -> plaink k ->
    (cons s = true -> cons s' = true) /\
    (forall r, o = ORet _ _ r -> (forall oc, kop k = OSetDef oc -> r = (None, ROk) -> cons s' = true) /\ (kop k = ODestroy -> cons s = true -> r = (None, ROk))).
  Proof.
    intros Hf D Hk. destruct s as [v0 x dn cs df vl tk stt cl]. cbn [done exc val defd calls] in *. subst.
    destruct k as [op|op|op|op|w|w|op]; try contradiction; cbn [plaink kop] in Hk; [destruct op; try (exfalso; destruct Hk; congruence); try destruct o0|destruct op; try discriminate| | | |]; destruct iag; cbn [ffrag with_notif] in Hf;
    open_frag Hf; inversion Hf; subst; cbn [kop set_cons store mark_done set_valid set_taken cons]; (split; [auto|]); intros r0 E0; try discriminate E0; injection E0 as <-; split; intros; try discriminate; subst; auto; try discriminate;
    try (cbn in *; subst; discriminate); try (cbn in *; destruct dn; discriminate).
  Qed.
  Lemma DD_step c c' : J c -> DD c -> stepcase P c c' -> DD c'.
  Proof.
    intros (D & Hpl) (A & B) Hs. destruct Hs as
     [t l op Ht Hp ->|t ps e l op k s' ns o thr' Ht Hfr Hd ->|t p l n ns thr' Ht Hd ->
     |t l op cv k Ht ->|t l op cv k k' Ht Hk ->|t l op cv k k' Ht Hk ->|t l op k k' Ht Hk ->]; unfold DD; cbn [sh thr hist] in *; try (split; assumption).
    - split.
      + intros t0 o [H|H]; [discriminate|eauto].
      + intros h2 t0 r h1 E. destruct h2 as [|x h2]; cbn in E; [discriminate|]. injection E as _ E. eauto.
    - pose proof (Forall_nth_error Hpl Ht) as [Hx Hz]. cbn [frag fuprog] in Hfr. subst op.
      pose proof (frag_no_fin _ _ _ _ _ _ _ _ Hfr) as F0. destruct (cons_frag _ _ _ _ Hfr D Hz) as (F1 & F2).
      destruct o as [r|r ns'|cv k'|k'|]; try contradiction; cbn [after snd].
      2-4: (split; [intros t0 o H; eauto|exact B]).
      destruct (F2 r eq_refl) as (F3 & F4). split.
      + intros t0 o [H|H]; [|eauto]. injection H as _ E E'. eapply F3; eauto.
      + intros h2 t0 r0 h1 E Hex. destruct h2 as [|x h2]; cbn in E; injection E as E1 E2; [|subst; eauto].
        * subst. apply F4; auto. destruct Hex as (t1 & o & Hin). eapply A; eauto.
  Qed.
  Lemma DD_reachable n c : reachable P n (finit KPromise) tt c -> DD c.
  Proof.
    apply reachable_ind'.
    - split; [intros ? ? []|intros [|] ? ? ?; discriminate].
    - intros c1 c2 Hr H Hs. eapply DD_step; eauto. apply (J_reachable Hr).
  Qed.
End DefDestroy.
